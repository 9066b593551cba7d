(** Calls of optimize on a network whose indices have other names. *)
From Verif Require Import M_Base M_Bitset M_Tree M_CTree M_Cost M_Opt M_InfMem M_FinWidth M_Path M_PyTree M_PyNodes M_OSet M_Random M_Tensor M_TnApp M_LoadTn
  M_App M_Parallel M_Seed S_Rename P_Rename P_RenameLoad P_RenameDec.
Set Implicit Arguments. Unset Strict Implicit.

(** * Processes that are images of others *)
Section Parallel.
Variables (V R R' St St' : Type) (init : list V -> list (nat * V) -> nat -> St) (init' : list V -> list (nat * V) -> nat -> St').
Variables (step : St -> bool -> (St * option Z) + R) (step' : St' -> bool -> (St' * option Z) + R').
Variables (q : St -> St') (qr : R -> R').
Hypothesis Hinit : forall a kw i, init' a kw i = q (init a kw i).
Hypothesis Hstep : forall s b, step' (q s) b = match step s b with inl (t, z) => inl (q t, z) | inr r => inr (qr r) end.

Definition qt (t : task R St) : task R' St' :=
  match t with Idle _ _ => Idle _ _ | Running _ s => Running _ (q s) | Returned _ r => Returned _ (qr r) | Finished _ r => Finished _ (qr r) end.
Definition qw (w : world R St) : world R' St' := mkW (map qt (w_tasks w)) (w_stop w) (w_status w) (w_completed w) (w_timer w).
Lemma work_map js w i : work init' step' js (qw w) i = map_res qw (work init step js w i).
Proof.
  unfold work. destruct w as [ts st sa co ti]. cbn [qw w_tasks w_stop w_status w_completed w_timer]. rewrite nth_error_map.
  destruct (nth_error ts i) as [[|s|r|r]|]; cbn [option_map qt]; auto.
  - destruct (get js i) as [[a kw]|]; cbn [bind map_res]; auto. rewrite Hinit. unfold qw. cbn. f_equal. f_equal.
    change (Running R' (q (init a kw i))) with (qt (Running R (init a kw i))). apply upd_map.
  - destruct (get st i) as [b|]; cbn [bind map_res]; auto. rewrite Hstep. destruct (step s b) as [[t [z|]]|r].
    + destruct (set sa i z); cbn [bind map_res]; auto. unfold qw. cbn. f_equal. f_equal. change (Running R' (q t)) with (qt (Running R t)). apply upd_map.
    + unfold qw. cbn. f_equal. f_equal. change (Running R' (q t)) with (qt (Running R t)). apply upd_map.
    + unfold qw. cbn. f_equal. f_equal. change (Returned St' (qr r)) with (qt (Returned St r)). apply upd_map.
  - destruct (set co i true); cbn [bind map_res]; auto. unfold qw. cbn. f_equal. f_equal. change (Finished St' (qr r)) with (qt (Finished St r)). apply upd_map.
Qed.
Lemma tick_map w : tick (qw w) = map_res qw (tick w).
Proof. destruct w as [ts st sa co ti]. unfold tick. cbn [qw w_tasks w_stop w_status w_completed w_timer]. destruct (ti <? length st); auto. destruct (set st ti true); auto. Qed.
Lemma run_events_map js es : forall w, run_events init' step' js es (qw w) = map_res qw (run_events init step js es w).
Proof.
  induction es as [|[i|] es IH]; intros w; simpl; auto.
  - rewrite work_map. destruct (work init step js w i); simpl; auto.
  - rewrite tick_map. destruct (tick w); simpl; auto.
Qed.
Lemma collect_map ts : collect (map qt ts) = map_res (map qr) (collect ts).
Proof. induction ts as [|[|s|r|r] ts IH]; simpl; auto. rewrite IH. destruct (collect ts); auto. Qed.
Lemma start_map n : start R' St' n = qw (start R St n).
Proof. unfold start, qw. cbn. f_equal. induction n; simpl; f_equal; auto. Qed.
Lemma parallel_map args kwargs es : parallel init' step' args kwargs es = map_res (map qr) (parallel init step args kwargs es).
Proof.
  unfold parallel. destruct args, kwargs; auto; destruct (jobs _ _) as [|j js]; auto; rewrite start_map, run_events_map;
    destruct (run_events init step _ es _); cbn [bind map_res]; auto; apply collect_map.
Qed.
End Parallel.

Section Process.
Variables (B C C' X X' Y Y' : Type) (paths paths' : nat -> res (list path)) (skip : X) (skip' : X') (build : nat -> path -> res C) (build' : nat -> path -> res C')
  (update : nat -> B -> C -> res C) (update' : nat -> B -> C' -> res C') (finish : C -> res X) (finish' : C' -> res X')
  (wrap : list X -> res Y) (wrap' : list X' -> res Y') (temps : list B) (qc : C -> C') (qx : X -> X') (qy : Y -> Y').
Hypothesis Hpaths : forall s, paths' s = paths s.
Hypothesis Hskip : skip' = qx skip.
Hypothesis Hbuild : forall s p, build' s p = map_res qc (build s p).
Hypothesis Hupdate : forall n b c, update' n b (qc c) = map_res qc (update n b c).
Hypothesis Hfinish : forall c, finish' (qc c) = map_res qx (finish c).
Hypothesis Hwrap : forall xs, wrap' (map qx xs) = map_res qy (wrap xs).
Definition qs (s : work_state B C X) : work_state B C' X' :=
  match s with
  | Begin _ _ _ seed => Begin _ _ _ seed
  | Next _ _ seed todo done => Next _ _ seed todo (map qx done)
  | Busy seed todo done n rest c => Busy seed todo (map qx done) n rest (qc c)
  end.
Lemma core_try_map s b : core_try paths' skip' build' update' finish' wrap' temps (qs s) b =
  map_res (fun r => match r with inl (t, z) => inl (qs t, z) | inr y => inr (qy y) end) (core_try paths skip build update finish wrap temps s b).
Proof.
  destruct s as [seed|seed [|p todo] done|seed todo done n rest c]; simpl.
  - rewrite Hpaths. destruct (paths seed); auto.
  - rewrite Hwrap. destruct (wrap done); auto.
  - destruct (length p =? 0); simpl; [rewrite map_app, Hskip; auto|]. rewrite Hbuild. destruct (build seed p); auto.
  - destruct rest as [|x rest]; [|destruct b]; try (rewrite Hfinish; destruct (finish c); simpl; auto; rewrite map_app; auto).
    rewrite Hupdate. destruct (update n x c); auto.
Qed.
Lemma mapM_id {A} (l : list (res A)) : forall D (h : A -> D), mapM (fun x => x) (map (map_res h) l) = map_res (map h) (mapM (fun x => x) l).
Proof. intros D h. induction l as [|x l IH]; simpl; auto. rewrite IH. destruct x; simpl; auto. destruct (mapM _ l); auto. Qed.
Lemma run_all_map seeds es : run_all paths' skip' build' update' finish' wrap' temps seeds es =
  map_res (map qy) (run_all paths skip build update finish wrap temps seeds es).
Proof.
  unfold run_all.
  rewrite (@parallel_map _ _ _ _ _ (@core_init B C X) (@core_init B C' X') (core_step paths skip build update finish wrap temps) (core_step paths' skip' build' update' finish' wrap' temps) qs (map_res qy)); auto.
  - destruct (parallel _ _ _ _ _) as [rs|]; cbn [bind map_res]; auto. apply mapM_id.
  - intros s b. unfold core_step. rewrite core_try_map. destruct (core_try _ _ _ _ _ _ _ s b) as [[[t z]|y]|]; auto.
Qed.
End Process.

Section Calls.
Variable f : nat -> nat.
Hypothesis Hf : injective f.
Variables (P R B : Type) (g : prng P) (next32 : P -> nat * P) (py_seed : nat -> P) (cpp_seed : nat -> R).

Section Run.
Variables (ts : list (list nat)) (d : pydims) (out sparse : list nat) (np : option Z) (pick : list nat -> nat).
Let ts' := map (map f) ts.
Let d' := rename_dims f d.
Let out' := map f out.
Let sparse' := map f sparse.
Definition ren_first {S} (x : pytree * S) : pytree * S := (rename_tree f (fst x), snd x).

Lemma im_parallel_map (rule : B -> rand R) betas n seeds es :
  im_parallel g py_seed cpp_seed ts' d' out' sparse' np pick rule betas n seeds es =
  im_parallel g py_seed cpp_seed ts d out sparse np pick rule betas n seeds es.
Proof.
  unfold im_parallel. destruct (check_steps n) as [k|]; simpl; auto. unfold sparse' at 1. rewrite check_model_map. destruct (check_model sparse np); simpl; auto.
  rewrite (@run_all_map B _ (pytree * im_state R) _ (Z * path) _ im_result (fun s => random_paths g pick ts (py_seed s)) _ (0%Z, []) _ (im_build cpp_seed ts d out sparse np) _
    (fun _ b x => let! s := im_update (rule b) (snd x) in Ok (fst x, s)) _ (@im_finish R) _ (im_wrap ts) _ _ ren_first (fun x => x) (fun x => x)); auto.
  - destruct (run_all _ _ _ _ _ _ _ _ _) as [rs|]; simpl; auto. rewrite map_id. auto.
  - intros s. apply (random_paths_map Hf).
  - intros s p. unfold im_build, ts', d', out', sparse'. change (Some (map f out)) with (option_map (map f) (Some out)). rewrite (pytree_map Hf).
    destruct (pytree_make p ts d (Some out) true) as [t|]; cbn [bind map_res]; auto. cbn [rename_tree inds_order core]. rewrite (get_core_map Hf).
    destruct (get_core sparse np (inds_order t)) as [m|]; cbn [bind map_res]; auto. destruct (im_make _ _ _ _ _); auto.
  - intros m b [t s]. simpl. destruct (im_update (rule b) s); auto.
  - intros [t s]. unfold im_finish. cbn [ren_first fst snd]. rewrite (get_ctree_map Hf). destruct (get_ctree t _); cbn [bind map_res]; auto. rewrite py_path_map. destruct (py_path _); auto.
  - intros xs. rewrite map_id. unfold im_wrap, ts'. rewrite map_length. destruct (merge_paths _ _ _); auto.
Qed.
Lemma repeat_nil n : map (map f) (repeat [] n) = repeat [] n.
Proof. induction n; simpl; f_equal; auto. Qed.
Lemma fw_parallel_map lg mx (fr0 : frand R) (rule : B -> frand R) betas n u seeds es :
  fw_parallel g py_seed cpp_seed ts' d' out' sparse' np pick lg mx fr0 rule betas n u seeds es =
  map_res (map (rename_result f)) (fw_parallel g py_seed cpp_seed ts d out sparse np pick lg mx fr0 rule betas n u seeds es).
Proof.
  unfold fw_parallel. destruct (check_steps n) as [k|]; simpl; auto. destruct (mx <? 0)%Z; auto. unfold sparse' at 1. rewrite check_model_map. destruct (check_model sparse np); simpl; auto.
  rewrite (@run_all_map B _ (pytree * fw_state R) _ (Z * path * list nat) _ fw_result (fun s => random_paths g pick ts (py_seed s)) _ (0%Z, [], []) _ (fw_build cpp_seed ts d out sparse np lg mx fr0) _
    (fun n b x => if u =? 0 then Err Crash else let! s := fw_update lg (rule b) (n mod u =? 0) (snd x) in Ok (fst x, s)) _ (@fw_finish R) _ (fw_wrap ts) _ _ ren_first (ren3 f) (rename_result f)); auto.
  - destruct (run_all _ _ _ _ _ _ _ _ _) as [rs|]; cbn [bind map_res]; auto. f_equal. apply sorted_map. auto.
  - intros s. apply (random_paths_map Hf).
  - intros s p. unfold fw_build, ts', d', out', sparse'. change (Some (map f out)) with (option_map (map f) (Some out)). rewrite (pytree_map Hf).
    destruct (pytree_make p ts d (Some out) true) as [t|]; cbn [bind map_res]; auto. cbn [rename_tree inds_order core]. rewrite (get_core_map Hf).
    destruct (get_core sparse np (inds_order t)) as [m|]; cbn [bind map_res]; auto. destruct (fmodel_make m mx); cbn [bind map_res]; auto. destruct (py_fw_make _ _ _ _ _ _ _ _ _ _ _); auto.
  - intros m b [t s]. simpl. destruct (u =? 0); auto. destruct (fw_update _ _ _ s); auto.
  - intros [t s]. unfold fw_finish. cbn [ren_first fst snd]. rewrite (get_ctree_map Hf). destruct (get_ctree t _); cbn [bind map_res]; auto. rewrite py_path_map. destruct (py_path _); cbn [bind map_res]; auto.
    unfold slice_names. cbn [rename_tree inds_order]. rewrite names_map. destruct (names_of _ _); auto.
  - intros xs. unfold fw_wrap, ts'. rewrite map_length. destruct xs as [|x xs].
    + simpl. destruct (merge_paths _ _ _); cbn [bind map_res]; auto. rewrite <- repeat_nil at 1. rewrite (reduce_or_map Hf).
      destruct (reduce_or _); cbn [bind map_res]; auto. unfold rename_result. cbn. rewrite repeat_nil. auto.
    + change (map (ren3 f) (x :: xs)) with (ren3 f x :: map (ren3 f) xs). cbv iota.
      change (ren3 f x :: map (ren3 f) xs) with (map (ren3 f) (x :: xs)). rewrite !map_map.
      replace (map (fun x0 => snd (ren3 f x0)) (x :: xs)) with (map (map f) (map snd (x :: xs))) by (rewrite map_map; auto).
      change (map (fun x0 => snd (fst (ren3 f x0))) (x :: xs)) with (map (fun x0 : Z * path * list nat => snd (fst x0)) (x :: xs)).
      change (map (fun x0 => fst (fst (ren3 f x0))) (x :: xs)) with (map (fun x0 : Z * path * list nat => fst (fst x0)) (x :: xs)).
      destruct (merge_paths _ _ _); cbn [bind map_res]; auto. rewrite (reduce_or_map Hf). destruct (reduce_or _); auto.
Qed.
End Run.

(** * Calls *)
Variables (K : Type) (A : alg K) (eqb : K -> K -> bool) (lg : N -> Z) (arr' arr : list nat -> list nat) (pick : list nat -> nat).
Hypothesis Harr : forall l, arr' (map f l) = map f (arr l).
Notation ren_call := (rename_call (B:=B) (K:=K) f).
Lemma net_inds (n : tnet K) : map (@t_inds K) (n_list (rename_network f n)) = map (map f) (map (@t_inds K) (n_list n)).
Proof. cbn. rewrite !map_map. auto. Qed.
Theorem im_call_map (rule : B -> rand R) es o c :
  im_call g next32 py_seed cpp_seed A eqb lg rule arr' pick es o (ren_call c) =
  let '(y, o') := im_call g next32 py_seed cpp_seed A eqb lg rule arr pick es o c in (map_res (fun e => (rename_object f (fst e), snd e)) y, o').
Proof.
  unfold im_call. cbn [rename_call ca_tn ca_dec ca_fuse ca_betas ca_steps ca_runs ca_projs]. rewrite (load_tn_map Hf A eqb g lg Harr).
  destruct (load_tn A eqb g lg arr (ca_tn c) _ _ _) as [tn|]; cbn [map_res]; auto. cbn [rename_object o_net]. rewrite net_inds. cbn [rename_network n_dims n_out n_sparse].
  rewrite check_model_map. destruct (check_steps (ca_steps c)); cbn [bind]; auto. destruct (check_model _ _); auto.
  destruct (choices next32 (ca_runs c) (op_rng o)) as [seeds r]. rewrite py_dims_keys, im_parallel_map.
  destruct (im_parallel _ _ _ _ _ _ _ _ _ _ _ _ _ _); auto.
Qed.
Theorem fw_call_map mx (fr0 : frand R) (rule : B -> frand R) u es o c :
  fw_call g next32 py_seed cpp_seed A eqb lg mx fr0 rule u arr' pick es o (ren_call c) =
  let '(y, o') := fw_call g next32 py_seed cpp_seed A eqb lg mx fr0 rule u arr pick es o c in
  (map_res (fun e => (rename_object f (fst e), map (rename_result f) (snd e))) y, o').
Proof.
  unfold fw_call. cbn [rename_call ca_tn ca_dec ca_fuse ca_betas ca_steps ca_runs ca_projs]. rewrite (load_tn_map Hf A eqb g lg Harr).
  destruct (load_tn A eqb g lg arr (ca_tn c) _ _ _) as [tn|]; cbn [map_res]; auto. cbn [rename_object o_net]. rewrite net_inds. cbn [rename_network n_dims n_out n_sparse].
  rewrite check_model_map. destruct (check_steps (ca_steps c)); cbn [bind]; auto. destruct (mx <? 0)%Z; auto. destruct (check_model _ _); auto.
  destruct (choices next32 (ca_runs c) (op_rng o)) as [seeds r]. rewrite py_dims_keys, fw_parallel_map.
  destruct (fw_parallel _ _ _ _ _ _ _ _ _ _ _ _ _ _ _ _ _ _); auto.
Qed.

Lemma session_map {Y Y' E E' : Type} (h : Y -> Y') (F : E -> optimizer P -> call B K -> res Y * optimizer P) (F' : E' -> optimizer P -> call B K -> res Y' * optimizer P) (q : E -> E' -> Prop) :
  (forall e e' o c, q e e' -> F' e' o (ren_call c) = let '(y, o') := F e o c in (map_res h y, o')) ->
  forall calls calls', Forall2 (fun x x' => q (fst x) (fst x') /\ snd x' = ren_call (snd x)) calls calls' ->
  forall o, session F' calls' o = map (map_res h) (session F calls o).
Proof.
  intros H calls calls' L. induction L as [|[e c] [e' c'] calls calls' [Q E0] L IH]; intros o; simpl; auto. simpl in Q, E0. subst c'.
  rewrite (H _ _ o c Q). destruct (F e o c) as [y o']. simpl. rewrite IH. auto.
Qed.
End Calls.
