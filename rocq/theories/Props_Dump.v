(** C51: results in files. *)
From Coq Require Import String. From Coq Require Import List ZArith Bool Arith Lia.
Import ListNotations.
From Verif Require Import M_Json M_JsonTn S_Json M_Dump S_Dump P_Json P_JsonTn P_Dump P_DumpMain Props_Json.
Set Implicit Arguments.
Unset Strict Implicit.
Local Open Scope string_scope. Local Open Scope list_scope. Local Open Scope nat_scope.

(** Whatever calls run at the same time, in whatever order they make their steps and
    wherever they stop, no file changes except those that the calls name; a call that only
    checks, or whose JSON text cannot be made, changes nothing at all. *)
Theorem C51_only_named_files (L : lib) (cs : list call) (sched : list (nat * option nat)) (fs : files) (f : nat) :
  (forall c, In c cs -> names_file L c f -> check_only c = true \/ (json_wanted L c /\ as_json c = None)) ->
  snd (run L cs sched fs) f = fs f.
Proof. exact (@only_named L cs sched fs f). Qed.
Print Assumptions C51_only_named_files.

(** A file that exists keeps its content if every call that names it is without
    overwrite_output_file. *)
Theorem C51_no_overwrite (L : lib) (cs : list call) (sched : list (nat * option nat)) (fs : files) (f : nat) (b : bytes) :
  (forall c, In c cs -> names_file L c f -> overwrite c = false) -> fs f = Some b ->
  snd (run L cs sched fs) f = Some b.
Proof. exact (@no_overwrite L cs sched fs f b). Qed.
Print Assumptions C51_no_overwrite.

(** A call that returned None has written its whole output to its file, if no other call
    names that file: the JSON text or the pickle, compressed as asked by name or by the
    extension of the file. *)
Theorem C51_complete (L : lib) (cs : list call) (sched : list (nat * option nat)) (fs : files) (i : nat) (c : call) (n : text) :
  nth_error cs i = Some c -> name c = Some n -> check_only c = false ->
  (forall j c', nth_error cs j = Some c' -> names_file L c' (file L n) -> j = i) ->
  nth_error (fst (run L cs sched fs)) i = Some (Ended RetNone) ->
  exists b, file_bytes L c b /\ snd (run L cs sched fs) (file L n) = Some b /\ (json_wanted L c \/ snd (pickled c) = true).
Proof.
  intros Hc En Eo Ho Hs. destruct (complete Hc En Eo Ho Hs) as (A & B & C). exists (target L c n). split; [exact B|]. split; [exact A|exact C].
Qed.
Print Assumptions C51_complete.

(** At any time, so also after a crash or an error, its file is as before or holds the
    first bytes of the output. *)
Theorem C51_any_time (L : lib) (cs : list call) (sched : list (nat * option nat)) (fs : files) (i : nat) (c : call) (n : text) :
  nth_error cs i = Some c -> name c = Some n ->
  (forall j c', nth_error cs j = Some c' -> names_file L c' (file L n) -> j = i) ->
  let fs' := snd (run L cs sched fs) in
  fs' (file L n) = fs (file L n) \/
  check_only c = false /\ exists b k, file_bytes L c b /\ fs' (file L n) = Some (firstn k b).
Proof. exact (@any_time L cs sched fs i c n). Qed.
Print Assumptions C51_any_time.

(** A call on its own, with arguments as documented and a file name, comes to its end and
    returns None (if pickle comes to its end). *)
Theorem C51_ends (L : lib) (c : call) (fs : files) (n : text) :
  name c = Some n -> accepted L c fs -> check_only c = false -> (json_wanted L c -> as_json c <> None) ->
  exists m, forall moves, m <= length moves ->
    fst (alone L c moves fs) = Some (Ended RetNone) \/
    ~ json_wanted L c /\ snd (pickled c) = false /\ exists e, fst (alone L c moves fs) = Some (Ended (Raise e)).
Proof.
  intros En Ha Eo Hj. exists (length (target L c n) + 4). intros moves Hm. rewrite (alone_ends En Ha Eo Hj Hm).
  destruct (is_json L c) eqn:Ej; [left; reflexivity|]. destruct (snd (pickled c)); [left; reflexivity|right].
  split; [intros H; apply is_json_spec in H; congruence|]. split; [reflexivity|]. exists OtherErr. reflexivity.
Qed.
Print Assumptions C51_ends.

(** Without a file name it returns the JSON text or the pair (tn, res), and changes no
    file. *)
Theorem C51_no_file (L : lib) (c : call) (k1 k2 : nat) (moves : list nat) (fs : files) :
  name c = None -> accepted L c fs -> check_only c = false ->
  snd (alone L c (k1 :: k2 :: moves) fs) = fs /\
  (~ json_wanted L c -> fst (alone L c (k1 :: k2 :: moves) fs) = Some (Ended RetPair)) /\
  (forall t, json_wanted L c -> as_json c = Some t -> fst (alone L c (k1 :: k2 :: moves) fs) = Some (Ended (RetText t))).
Proof.
  intros En Ha Eo. rewrite (alone_no_name _ _ _ En Ha Eo). split; [reflexivity|]. split.
  - intros H. destruct (is_json L c) eqn:Ej; [exfalso; apply H, is_json_spec; exact Ej|reflexivity].
  - intros t H Et. apply is_json_spec in H. rewrite H, Et. reflexivity.
Qed.
Print Assumptions C51_no_file.

(** Arguments that are not as documented, and a file that exists without overwrite, raise a
    TypeError, ValueError or FileExistsError before anything is written, with and without
    check_only; and check_only raises nothing else. *)
Theorem C51_errors (L : lib) (c : call) (k : nat) (moves : list nat) (fs : files) :
  (~ accepted L c fs -> exists e, e <> OtherErr /\ alone L c (k :: moves) fs = (Some (Ended (Raise e)), fs)) /\
  (accepted L c fs -> check_only c = true -> alone L c (k :: moves) fs = (Some (Ended RetNone), fs)) /\
  (forall n b, accepted L c (fun _ => None) -> name c = Some n -> overwrite c = false -> fs (file L n) = Some b ->
     alone L c (k :: moves) fs = (Some (Ended (Raise ExistsErr)), fs)).
Proof.
  split; [|split].
  - intros H. destruct (not_accepted H) as (e & E & N). exists e. split; [exact N|exact (alone_check _ _ E)].
  - intros H Eo. apply alone_check_only; [apply check_spec; exact H|exact Eo].
  - intros n b Ha En Eo Eb. apply alone_check. exact (exists_error Ha En Eo Eb).
Qed.
Print Assumptions C51_errors.

(** load_file reads the JSON output back, whatever the compression. *)
Theorem C51_load_json (L : lib) (F : Type) (frepr : F -> text) (fread : text -> F)
  (gunzip bunzip : bytes -> option bytes) (decode : bytes -> option text)
  (cs : list call) (sched : list (nat * option nat)) (fs : files) (i : nat) (c : call) (n : text)
  (net : network F) (res : list (results F)) (fuel : nat) :
  float_ok frepr fread -> codecs_ok c gunzip bunzip -> ascii_ok c decode -> 2 <= fuel ->
  plain_network net -> Forall (@plain_results F) res ->
  nth_error cs i = Some c -> name c = Some n -> valid_path L n = true -> check_only c = false ->
  json_wanted L c -> as_json c = Some (json_output frepr net res) ->
  (forall j c', nth_error cs j = Some c' -> names_file L c' (file L n) -> j = i) ->
  nth_error (fst (run L cs sched fs)) i = Some (Ended RetNone) ->
  exists v, load_file gunzip bunzip decode (loads fread) L fuel n (snd (run L cs sched fs)) = LJson v /\
            shows_output frepr net res v.
Proof.
  intros HF Hk Ha Hf Hn Hr Hc En Hv Eo Hj Et Ho Hs. exact (@reload L F frepr fread gunzip bunzip decode HF cs sched fs i c n net res fuel Hc En Hv Eo Hj Et Hn Hr Ho Hk Ha Hf Hs).
Qed.
Print Assumptions C51_load_json.

(** ** What does not hold *)
Definition x_lib : lib := mk_lib (fun s => s) (fun _ => true) (fun s => length s).
Definition x_gz (b : bytes) : bytes := (31 :: 139 :: b)%Z.
Definition x_gunzip (b : bytes) : option bytes := match b with _ :: _ :: b' => Some b' | _ => None end.
Definition x_bz (b : bytes) : bytes := str "BZ" ++ b.
Definition x_decode (b : bytes) : option text := if forallb (fun c => (c <? 128)%Z) b then Some b else None.
Definition x_call (fmt : string) (n : string) (over : bool) (json : option text) (p : bytes * bool) : call :=
  mk_call false (Some (str fmt)) (Some (str n)) (str "auto") over false json p x_gz x_bz (fun t => t).

(** Results that were pickled cannot be loaded: load_file raises. *)
Theorem C51_load_raw_refuted (L : lib) (F : Type) (fread : text -> F)
  (gunzip bunzip : bytes -> option bytes) (decode : bytes -> option text)
  (cs : list call) (sched : list (nat * option nat)) (fs : files) (i : nat) (c : call) (n : text) (t : bytes) (fuel : nat) :
  (forall s, decode (128%Z :: s) = None) -> codecs_ok c gunzip bunzip -> fst (pickled c) = 128%Z :: t ->
  ~ json_wanted L c -> nth_error cs i = Some c -> name c = Some n -> check_only c = false ->
  (forall j c', nth_error cs j = Some c' -> names_file L c' (file L n) -> j = i) ->
  nth_error (fst (run L cs sched fs)) i = Some (Ended RetNone) ->
  load_file gunzip bunzip decode (loads fread) L fuel n (snd (run L cs sched fs)) = LRaise.
Proof.
  intros Hd Hk Ep Hj Hc En Eo Ho Hs. destruct (complete Hc En Eo Ho Hs) as (A & _). exact (raw_unreadable fread fuel Hd Hk Ep Hj A).
Qed.
Print Assumptions C51_load_raw_refuted.

(** A crash after open loses the old content, when the file may be overwritten. *)
Theorem C51_old_content_refuted : exists (c : call) (fs : files) (sched : list (nat * option nat)) b,
  fs 3 = Some b /\ b <> [] /\ nth_error (fst (run x_lib [c] sched fs)) 0 = Some (Ended (Raise OtherErr)) /\ snd (run x_lib [c] sched fs) 3 = Some [].
Proof.
  exists (x_call "json" "a.b" true (Some (str "{}")) ([], true)), (fun f => if f =? 3 then Some (str "old") else None), [(0, Some 0); (0, Some 0); (0, Some 0); (0, None)], (str "old").
  repeat split; try (vm_compute; reflexivity). discriminate.
Qed.
Print Assumptions C51_old_content_refuted.

(** An object that cannot be pickled leaves a broken file in the place of the old one. *)
Theorem C51_pickle_error_refuted : exists (c : call) (fs : files) (moves : list nat) b b',
  fs 3 = Some b /\ fst (alone x_lib c moves fs) = Some (Ended (Raise OtherErr)) /\ snd (alone x_lib c moves fs) 3 = Some b' /\ b' <> b /\ accepted x_lib c fs.
Proof.
  exists (x_call "raw" "a.b" true None ([128; 4]%Z, false)), (fun f => if f =? 3 then Some (str "old") else None), [0; 0; 0; 0; 0; 0], (str "old"), [128; 4]%Z.
  split; [reflexivity|]. split; [vm_compute; reflexivity|]. split; [vm_compute; reflexivity|]. split; [discriminate|]. apply check_spec. vm_compute. reflexivity.
Qed.
Print Assumptions C51_pickle_error_refuted.

(** Two calls without overwrite_output_file may both return None with the same file, which
    then holds neither output. *)
Theorem C51_race_refuted : exists (c1 c2 : call) (sched : list (nat * option nat)) b,
  overwrite c1 = false /\ overwrite c2 = false /\
  fst (run x_lib [c1; c2] sched (fun _ => None)) = [Ended RetNone; Ended RetNone] /\
  snd (run x_lib [c1; c2] sched (fun _ => None)) 3 = Some b /\ as_json c1 <> Some b /\ as_json c2 <> Some b.
Proof.
  exists (x_call "json" "a.b" false (Some (str "{""x"": 1}")) ([], true)), (x_call "json" "a.b" false (Some (str "{}")) ([], true)),
    ([(0, Some 0); (1, Some 0); (0, Some 0); (1, Some 0); (0, Some 0); (1, Some 0); (0, Some 9); (0, Some 9); (1, Some 9); (1, Some 9)]), (str "{}x"": 1}").
  repeat split; try (vm_compute; reflexivity); vm_compute; discriminate.
Qed.
Print Assumptions C51_race_refuted.

(** The documentation says that compression without a file name is a ValueError; the
    result is returned instead. *)
Theorem C51_compression_without_file_refuted : exists (c : call),
  name c = None /\ lower x_lib (compression c) = str "gzip" /\ fst (alone x_lib c [0; 0] (fun _ => None)) = Some (Ended RetPair).
Proof.
  exists (mk_call false None None (str "gzip") false false None ([], true) x_gz x_bz (fun t => t)).
  repeat split; vm_compute; reflexivity.
Qed.
Print Assumptions C51_compression_without_file_refuted.

(** ** Non-trivial cases *)
Lemma x_codecs fmt n o j p : codecs_ok (x_call fmt n o j p) x_gunzip x_gunzip /\ ascii_ok (x_call fmt n o j p) x_decode.
Proof.
  split; [intros b; repeat split|]. intros t Ht. split; [reflexivity|]. unfold x_decode.
  assert (E : forallb (fun c => (c <? 128)%Z) t = true). { apply forallb_forall. intros c Hc. unfold printable in Ht. rewrite Forall_forall in Ht. specialize (Ht c Hc). apply Z.ltb_lt. simpl in Ht. lia. }
  rewrite E. reflexivity.
Qed.
Definition x_c1 : call := x_call "json" "out/r.gzip" false (Some (json_output xrepr x_net x_results)) ([], true).
Definition x_c2 : call := x_call "raw" "b.pkl" true None ([128; 4; 75; 1; 46]%Z, true).
(** Two calls whose steps alternate; the first is compressed by its extension, the second
    overwrites a file. *)
Definition x_sched : list (nat * option nat) := flat_map (fun k => [(0, Some k); (1, Some 1)]) (repeat 99 12).
Definition x_fs : files := fun f => if f =? 5 then Some (str "old content") else if f =? 7 then Some (str "other") else None.
Example C51_applies :
  fst (run x_lib [x_c1; x_c2] x_sched x_fs) = [Ended RetNone; Ended RetNone] /\
  snd (run x_lib [x_c1; x_c2] x_sched x_fs) 5 = Some [128; 4; 75; 1; 46]%Z /\
  snd (run x_lib [x_c1; x_c2] x_sched x_fs) 7 = Some (str "other") /\
  (exists d s, path_with d s (str "gzip") (str "out/r.gzip")) /\
  (exists v, load_file x_gunzip x_gunzip x_decode (loads xread) x_lib 9 (str "out/r.gzip") (snd (run x_lib [x_c1; x_c2] x_sched x_fs)) = LJson v /\ shows_output xrepr x_net x_results v).
Proof.
  assert (E : fst (run x_lib [x_c1; x_c2] x_sched x_fs) = [Ended RetNone; Ended RetNone]) by (vm_compute; reflexivity).
  split; [exact E|]. split; [vm_compute; reflexivity|]. split; [vm_compute; reflexivity|]. split.
  - exists (str "out/"), (str "r"). split; [reflexivity|]. split; [right; exists (str "out"); reflexivity|]. repeat split; try discriminate; vm_compute; intuition discriminate.
  - assert (Hj : json_wanted x_lib x_c1) by (exists (str "json"); split; reflexivity).
    destruct (x_codecs "json" "out/r.gzip" false (Some (json_output xrepr x_net x_results)) ([], true)) as (Hk & Ha).
    apply (@C51_load_json x_lib Z xrepr xread x_gunzip x_gunzip x_decode [x_c1; x_c2] x_sched x_fs 0 x_c1 (str "out/r.gzip") x_net x_results 9 xfloat_ok Hk Ha);
      [lia|apply x_plain|apply x_plain|reflexivity|reflexivity|reflexivity|reflexivity|exact Hj|reflexivity| |rewrite E; reflexivity].
    intros [|[|j]] c' Hc' Hn; [reflexivity| |destruct j; discriminate]. injection Hc' as <-. destruct Hn as (n & En & Ef). injection En as <-. discriminate Ef.
Qed.
(** A file that is not to be overwritten, and a call that stops in the middle. *)
Example C51_no_overwrite_applies :
  fst (run x_lib [x_call "json" "12.45" false (Some (str "{}")) ([], true)] [(0, Some 0)] x_fs) = [Ended (Raise ExistsErr)] /\
  (forall c, In c [x_call "json" "12.45" false (Some (str "{}")) ([], true)] -> names_file x_lib c 5 -> overwrite c = false) /\ x_fs 5 = Some (str "old content").
Proof. split; [vm_compute; reflexivity|]. split; [|reflexivity]. intros c [<-|[]] _. reflexivity. Qed.
Example C51_any_time_applies :
  fst (run x_lib [x_c2] [(0, Some 0); (0, Some 0); (0, Some 0); (0, Some 1); (0, None)] x_fs) = [Ended (Raise OtherErr)] /\
  snd (run x_lib [x_c2] [(0, Some 0); (0, Some 0); (0, Some 0); (0, Some 1); (0, None)] x_fs) 5 = Some [128; 4]%Z.
Proof. split; vm_compute; reflexivity. Qed.
