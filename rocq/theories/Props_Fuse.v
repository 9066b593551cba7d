(** C30: fuse (tnco.utils.tn.fuse). *)
From Coq Require Import List Arith ZArith NArith Lia.
Import ListNotations.
From Verif Require Import M_Base M_Path M_PyTree M_Random M_Fuse S_Path S_PyTree S_Random S_Network S_Fuse P_Fuse Props_Random.

(** C30: fuse raises exactly on the inputs that [fuse_rejects] lists. Otherwise its
    path is valid; and for each contraction [c] of the path, in order, and the
    fused tensor [zs] reported for it: [c] contracts two tensors that share an
    index; [zs] has, without repetitions, the indices that stay after the
    contraction (outputs are among them); its width is at most the given maximum;
    and no tensor below [c] has an excluded index. For any random choices. *)
Theorem C30_rejected_inputs_raise (R : Type) (g : prng R) lg ts d max_width output exclude r :
  prng_ok g -> (forall xs, In xs ts -> NoDup xs) ->
  fuse g lg ts d max_width output exclude r = Err Throw <-> fuse_rejects ts d output exclude.
Proof. exact (@fuse_raises R g lg ts d max_width output exclude r). Qed.
Print Assumptions C30_rejected_inputs_raise.

Theorem C30_fuse_respects_bounds (R : Type) (g : prng R) lg ts d max_width output exclude r :
  prng_ok g -> (forall xs, In xs ts -> NoDup xs) -> ~ fuse_rejects ts d output exclude ->
  exists p fs cs rest, fuse g lg ts d max_width output exclude r = Ok (p, fs) /\ performs (length ts) p cs rest /\
    Forall2 (fun c zs => (exists a b, c = C a b /\ share ts (tensors a) (tensors b)) /\
      NoDup zs /\ (forall x, In x zs <-> stays ts (match output with Some o => o | None => [] end) (tensors c) x) /\
      (forall w, total_width lg d zs w -> (w <= max_width)%Z) /\ (exists w, total_width lg d zs w) /\
      (forall t x, In x exclude -> In t (tensors c) -> ~ has ts t x)) cs fs.
Proof. exact (@fuse_accepts R g lg ts d max_width output exclude r). Qed.
Print Assumptions C30_fuse_respects_bounds.

(** An index of the output is never lost. *)
Theorem C30_outputs_stay (R : Type) (g : prng R) lg ts d max_width o exclude r p fs :
  prng_ok g -> (forall xs, In xs ts -> NoDup xs) -> fuse g lg ts d max_width (Some o) exclude r = Ok (p, fs) ->
  exists cs rest, performs (length ts) p cs rest /\
    Forall2 (fun c zs => forall x, In x o -> (exists t, In t (tensors c) /\ has ts t x) -> In x zs) cs fs.
Proof. exact (@fuse_outputs R g lg ts d max_width o exclude r p fs). Qed.
Print Assumptions C30_outputs_stay.

(** The assumption on repeated indices is needed: with an index twice in the same
    tensor (a trace), fuse raises although nothing else is wrong. *)
Theorem C30_repeated_index_refuted : exists ts d, (~ fuse_rejects ts d None []) /\
  forall (R : Type) (g : prng R) lg max_width r, prng_ok g -> fuse g lg ts d max_width None [] r = Err Throw.
Proof. exact fuse_repeated. Qed.
Print Assumptions C30_repeated_index_refuted.

Lemma nodup_ex (l : list nat) : length (nodup Nat.eq_dec l) = length l -> NoDup l.
Proof.
  intros H. apply NoDup_incl_NoDup with (l := nodup Nat.eq_dec l); [apply NoDup_nodup|lia|]. intros x. apply nodup_In.
Qed.
(** A ring of four tensors and a hyper-index 9 in three tensors; 9 is an output and
    index 3 is excluded. *)
Definition fuse_ts : list (list nat) := [[0; 1]; [1; 2; 9]; [2; 3; 9]; [3; 0; 9]; [5; 0]].
Example C30_applies : prng_ok ex_g /\ (forall xs, In xs fuse_ts -> NoDup xs) /\
  (~ fuse_rejects fuse_ts (PyInt 2) (Some [9]) [3]) /\
  fuse ex_g (fun k => Z.of_N (N.log2 k)) fuse_ts (PyInt 2) 4 (Some [9]) [3] 1 = Ok ([(0, 1); (2, 3)], [[0; 2; 9]; [5; 0; 2; 9]]).
Proof.
  split; [exact ex_g_ok|]. split.
  { intros xs H. repeat (destruct H as [<-|H]; [apply nodup_ex; vm_compute; reflexivity|]). destruct H. }
  split; [|vm_compute; reflexivity].
  intros [(x & [<-|[]] & A)|[(x & _ & B)|[(A & _)|(o & E & x & F & A)]]].
  - apply (A 2). exists [2; 3; 9]. simpl. auto.
  - apply (B 2%N). reflexivity.
  - discriminate.
  - inversion E; subst o. destruct F as [<-|[]]. apply (A 1). exists [1; 2; 9]. simpl. auto.
Qed.
