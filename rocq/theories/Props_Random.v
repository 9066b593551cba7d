(** C28: get_random_contraction_path. The theorems hold for every random generator
    (every seed) and every order of the elements of a set. *)
From Coq Require Import List Arith Lia.
Import ListNotations.
From Verif Require Import M_Base M_Path M_Random S_Path S_Random P_RandMain.

(** C28, with merge_paths=False: the function returns one path for each connected
    component of the network that has an index. Each path is valid, contracts all
    the tensors of the component (and nothing else) into one, and contracts only
    tensors that share an index. Each tensor with an index is in one component. *)
Theorem C28_one_path_per_component (R : Type) (g : prng R) pick ts r : prng_ok g -> pick_ok pick ->
  exists ps comps, random_paths g pick ts r = Ok ps /\
    Forall2 (fun p k => contracts_component ts p (fst k) (snd k)) ps comps /\
    (forall t x, has ts t x -> exists a k, nth_error comps a = Some k /\ In t (tensors (snd k))) /\
    (forall a b k k' t, nth_error comps a = Some k -> nth_error comps b = Some k' ->
       In t (tensors (snd k)) -> In t (tensors (snd k')) -> a = b).
Proof. exact (@random_ok R g pick ts r). Qed.
Print Assumptions C28_one_path_per_component.

(** C28, with merge_paths=True: the path is valid and performs the contractions of
    all the components, then, with autocomplete, others that leave one tensor. It
    then has one step less than there are tensors. *)
Theorem C28_merged_path (R : Type) (g : prng R) pick ts r autocomplete : prng_ok g -> pick_ok pick ->
  exists ps p comps extra rest, random_paths g pick ts r = Ok ps /\
    Forall2 (fun p k => contracts_component ts p (fst k) (snd k)) ps comps /\
    random_path g pick ts autocomplete r = Ok p /\ performs (length ts) p (concat (map fst comps) ++ extra) rest /\
    (autocomplete = false -> extra = []) /\
    (autocomplete = true -> 0 < length ts -> length p = length ts - 1 /\ exists t, rest = [t]).
Proof. exact (@random_merged R g pick ts r autocomplete). Qed.
Print Assumptions C28_merged_path.

(** A generator: a counter. *)
Definition ex_g : prng nat := mkPrng
  (fun r n => (r mod n, S r))
  (fun r n => ((r mod n, (r mod n + 1) mod n), S r)).
Lemma ex_g_ok : prng_ok ex_g.
Proof.
  split.
  - intros r n H. simpl. apply Nat.mod_upper_bound. lia.
  - intros r n H. simpl. assert (A : r mod n < n) by (apply Nat.mod_upper_bound; lia). set (a := r mod n) in *.
    destruct (Nat.eq_dec (a + 1) n) as [E|E].
    + rewrite E, Nat.mod_same by lia. lia.
    + rewrite Nat.mod_small by lia. lia.
Qed.
Definition ex_pick (l : list nat) : nat := hd 0 l.
Lemma ex_pick_ok : pick_ok ex_pick.
Proof. intros [|a l] H; [congruence|left; auto]. Qed.
(** Two components, one with a hyper-index (7, in three tensors), and a tensor
    without indices. *)
Definition ex_ts : list (list nat) := [[7; 5]; [9]; [7]; [4; 9]; []; [7; 5]].
Example C28_applies : prng_ok ex_g /\ pick_ok ex_pick /\
  random_paths ex_g ex_pick ex_ts 3 = Ok [[(0, 5); (1, 4)]; [(1, 3)]] /\
  random_path ex_g ex_pick ex_ts true 3 = Ok [(0, 5); (1, 4); (0, 1); (0, 1); (0, 1)].
Proof. split; [exact ex_g_ok|]. split; [exact ex_pick_ok|]. split; vm_compute; reflexivity. Qed.
