(** C57: load_tn finds out what it is given.
    Vocabulary (S_Detect.v, S_Text.v): [means n o r]: the object [o] is in one of the
    documented formats, wrapped in [n] files, texts and so on, and stands for what the
    reader [r] is to read; [index_entry]: (dimension, name, ...); [gate_on_qubits]:
    (square matrix, qubits), with one qubit or more; [like_entry], [like_gate]: the same,
    as far as len(x), x[0] and x[1] tell; [tame]: no part is empty, a dict or infinite.
    [detect fuel o]: the reader that load_tn calls when Python allows [fuel] nested calls. *)
From Coq Require Import List Arith ZArith Bool Lia.
Import ListNotations.
From Verif Require Import M_Base M_Text S_Text M_Detect S_Detect P_Detect Props_Text.
From Verif Require M_Json S_Json Props_Json.
Local Open Scope nat_scope.

(** Every documented format reaches its reader, with the same contents: a network, a list
    of indices, a list of gates; a text that lists indices, as the list; QASM; the
    standard input, a file and a JSON text, as what they contain. *)
Theorem C57_formats space digit newline upper limit (N A : Type) shape row whole (F : Type) fread fint (W : world N A F) n o r :
  unicode space digit newline upper -> brackets space digit upper ->
  means space digit newline upper limit shape fread fint W n o r ->
  forall fuel, n <= fuel -> detect space digit newline upper limit shape row whole fread fint W fuel o = Val r.
Proof. intros U B H. exact (means_ok row whole U B H). Qed.
Print Assumptions C57_formats.

(** json.dumps of a list of indices is read as this list, unless it is the name of a file. *)
Theorem C57_json_texts space digit newline upper limit (N A : Type) shape row whole (F : Type) fread fint (W : world N A F) frepr l n r :
  unicode space digit newline upper -> brackets space digit upper -> S_Json.float_ok frepr fread -> S_Json.plain (M_Json.VList l) ->
  (let s := map Z.to_nat (M_Json.dumps frepr (M_Json.VList l)) in w_valid W s = true -> w_exists W s = Val false) ->
  means space digit newline upper limit shape fread fint W n (of_json N A (M_Json.VList l)) r ->
  forall fuel, n < fuel -> detect space digit newline upper limit shape row whole fread fint W fuel (OStr (map Z.to_nat (M_Json.dumps frepr (M_Json.VList l)))) = Val r.
Proof. intros U B HF Hp H1 Hm. exact (json_list row whole U B HF Hp H1 Hm). Qed.
Print Assumptions C57_json_texts.

(** What is read as a list of indices consists of what looks like indices; what is read as
    a list of gates, of what looks like gates. *)
Theorem C57_no_misreading space digit newline upper limit (N A : Type) shape row whole (F : Type) fread fint (W : world N A F) f (l : list (obj N A F)) r :
  detect space digit newline upper limit shape row whole fread fint W (S f) (OSeq l) = Val r ->
  r = RInds l /\ Forall (like_entry shape fint row whole) l \/
  r = RGates l /\ Forall (like_gate shape fint row) l /\ ~ Forall (like_entry shape fint row whole) l.
Proof. intros H. destruct (finish_only H) as (l' & E & H'). injection E as <-. exact H'. Qed.
Print Assumptions C57_no_misreading.

(** A list of gates on qubits is not read as indices; a mixed list is refused. *)
Theorem C57_mixed_lists_are_refused space digit newline upper limit (N A : Type) shape row whole (F : Type) fread fint (W : world N A F) f (l : list (obj N A F)) :
  Forall (fun x => index_entry fint x \/ gate_on_qubits shape x) l ->
  (exists x, In x l /\ index_entry fint x) -> (exists x, In x l /\ gate_on_qubits shape x) ->
  detect space digit newline upper limit shape row whole fread fint W (S f) (OSeq l) = Raise TypeError.
Proof. intros H1 H2 H3. exact (mixed space digit newline upper limit row whole fread W f H1 H2 H3). Qed.
Print Assumptions C57_mixed_lists_are_refused.

(** Every other list of objects that are neither empty nor dicts raises TypeError. *)
Theorem C57_lists space digit newline upper limit (N A : Type) shape row whole (F : Type) fread fint (W : world N A F) f (l : list (obj N A F)) :
  Forall (tame shape fint row whole) l -> (forall d, ~ In (ODict d) l) ->
  let read := detect space digit newline upper limit shape row whole fread fint W (S f) (OSeq l) in
  read = Val (RInds l) /\ Forall (like_entry shape fint row whole) l \/
  read = Val (RGates l) /\ Forall (like_gate shape fint row) l \/
  read = Raise TypeError /\ ~ Forall (index_entry fint) l /\ ~ Forall (gate_on_qubits shape) l.
Proof. intros H1 H2. exact (list_cases space digit newline upper limit fread W f H1 H2). Qed.
Print Assumptions C57_lists.

(** ** A small world: arrays are their shapes, floats are whole numbers, and there is one
    file, whose name and contents are given. *)
Definition x_world (name : list nat) (content : obj unit (list nat) Z) : world unit (list nat) Z :=
  mkWorld [50; 32; 97; 10] (fun _ => true) (fun s => Val (same_text s name)) (fun _ => Val content).
Definition x_detect (name : list nat) (content : obj unit (list nat) Z) :=
  detect ascii_space ascii_digit ascii_newline ascii_upper None (fun a => a) (fun a _ => tl a) (fun _ => Val true)
    Props_Json.xread Some (x_world name content).
Lemma ascii_brackets : brackets ascii_space ascii_digit ascii_upper.
Proof. intros c [-> | ->]; repeat split. Qed.
(** "ab", a name of no list *)
Definition ab := [97; 98].
Lemma ab_other : other_text ascii_space ascii_digit ascii_newline ascii_upper ab.
Proof.
  exists [ab], ab. split; [apply lines_last; [discriminate|intros c [<-|[<-|[]]]; reflexivity]|]. split; [left; reflexivity|]. split; [discriminate|]. split; [reflexivity|]. split.
  - intros lim es H. inversion H as [|? ? ? H1 H2|? ? ? ? H1 H2]; subst.
    + destruct H1 as [H1|(l & H1)]; [|discriminate]. specialize (H1 97 (or_introl eq_refl)). discriminate.
    + destruct H1 as (n & rest & E & Hd & _). inversion Hd as [c k Hc|l z c k Hl Hc]; subst.
      * injection E as <- _. discriminate.
      * destruct l as [|x l]; [inversion Hl; destruct l; discriminate|]. assert (x = 97) by (injection E; auto). subst x.
        clear - Hl. remember (97 :: l) as m eqn:Em. revert l Em. induction Hl as [c k Hc|m z c k Hm IH Hc]; intros l Em.
        -- injection Em as -> <-. discriminate.
        -- destruct m as [|y m]; [inversion Hm; destruct l0; discriminate|]. injection Em as -> _. exact (IH _ eq_refl).
  - intros k [<-|[]]. reflexivity.
Qed.

(** The documentation promises a TypeError for what is not recognized. An empty entry
    raises IndexError, so does a gate on no qubits; an infinite dimension raises
    OverflowError, a dict in the list KeyError, and a text of comments ValueError. *)
Theorem C57_errors_refuted : forall name content f,
  x_detect name content (S f) (OSeq [OSeq []]) = Raise IndexError /\
  x_detect name content (S f) (OSeq [OSeq [OArr [2; 2]; OSeq []]]) = Raise IndexError /\
  x_detect name content (S f) (OSeq [OSeq [OFloat (M_Json.Inf Z); OStr ab]]) = Raise OverflowError /\
  x_detect name content (S f) (OSeq [ODict [(OStr ab, OInt 1)]]) = Raise KeyError /\
  x_detect name content (S f) (OStr [47; 47; 97]) = Raise ValueError.
Proof. intros name content f. repeat split. Qed.
Print Assumptions C57_errors_refuted.

(** A gate without qubits (a global phase), if its entry is an integer, makes a list of
    gates a list of indices. *)
Theorem C57_global_phase_refuted : forall name content f, exists g,
  like_gate (fun a => a) Some (fun a _ => tl a) g /\ x_detect name content (S f) (OSeq [g]) = Val (RInds [g]).
Proof.
  intros name content f. exists (OSeq [OArr [1; 1]; OSeq []]). split; [|reflexivity]. exists [1; 1], (OSeq []), 0. repeat split.
Qed.
Print Assumptions C57_global_phase_refuted.

(** A file whose name reads as an index is not opened; a file that contains its own name
    is opened again and again. *)
Theorem C57_file_names_refuted : forall l fuel, 2 <= fuel ->
  w_exists (x_world [55] (OSeq l)) [55] = Val true /\ w_file (x_world [55] (OSeq l)) [55] = Val (OSeq l) /\
  x_detect [55] (OSeq l) fuel (OStr [55]) = Raise TypeError.
Proof. intros l fuel H. split; [reflexivity|]. split; [reflexivity|]. destruct fuel as [|[|f]]; [lia|lia|]. reflexivity. Qed.
Print Assumptions C57_file_names_refuted.
Theorem C57_file_of_its_name_refuted : forall fuel, x_detect ab (OStr ab) fuel (OStr ab) = Raise RecursionError.
Proof. apply itself; [exact ascii_unicode|discriminate|exact ab_other|reflexivity|reflexivity|reflexivity]. Qed.
Print Assumptions C57_file_of_its_name_refuted.

(** os.stat of a name of more than 255 characters fails on Linux with an OSError that
    Path.exists (before Python 3.14) passes on. A JSON text of that length which is a valid
    path is not read, although no file has its name. *)
Definition long_text := [91] ++ repeat 32 300 ++ [91; 50; 44; 34; 97; 34; 93; 93].
Definition linux : world unit (list nat) Z :=
  mkWorld [] (fun s => length s <=? 4096) (fun s => if 255 <? length s then Raise Raised else Val false) (fun _ => Raise Raised).
Theorem C57_long_texts_refuted : exists v,
  M_Json.loads Props_Json.xread (map Z.of_nat long_text) = Some v /\
  means ascii_space ascii_digit ascii_newline ascii_upper None (fun a => a) Props_Json.xread Some linux 1 (of_json unit (list nat) v) (RInds [OSeq [OInt 2; OStr [97]]]) /\
  forall f, detect ascii_space ascii_digit ascii_newline ascii_upper None (fun a => a) (fun a _ => tl a) (fun _ => Val true) Props_Json.xread Some linux (S f) (OStr long_text) = Raise Raised.
Proof.
  exists (M_Json.VList [M_Json.VList [M_Json.VInt Z 2; M_Json.VStr Z [97%Z]]]). split; [vm_compute; reflexivity|]. split.
  - apply m_inds. constructor; [|constructor]. exists (OInt 2), (OStr [97]), []. split; [reflexivity|constructor].
  - intros f. cbn [detect]. assert (E : same_text long_text stdin_word = false) by reflexivity. rewrite E.
    assert (E2 : read_text ascii_space ascii_digit ascii_newline ascii_upper None long_text = Ok Other) by (vm_compute; reflexivity). rewrite E2.
    assert (E3 : (if w_valid linux long_text then w_exists linux long_text else Val false) = Raise Raised) by (vm_compute; reflexivity). rewrite E3. reflexivity.
Qed.
Print Assumptions C57_long_texts_refuted.

(** ** Non-trivial cases *)
Definition x_entry : obj unit (list nat) Z := OSeq [OInt 2; OStr [97]; OStr [98]].
Definition x_gate : obj unit (list nat) Z := OSeq [OArr [4; 4]; OSeq [OStr [97]; OInt 3]].
(** A file that contains the JSON text of a list with one index; the standard input, which
    is a list; a list of gates. *)
Example C57_applies : let W := x_world ab (OStr [91; 91; 50; 44; 32; 34; 97; 34; 93; 93]) in
  unicode ascii_space ascii_digit ascii_newline ascii_upper /\ brackets ascii_space ascii_digit ascii_upper /\
  means ascii_space ascii_digit ascii_newline ascii_upper None (fun a => a) Props_Json.xread Some W 3 (OStr ab) (RInds [OSeq [OInt 2; OStr [97]]]) /\
  means ascii_space ascii_digit ascii_newline ascii_upper None (fun a => a) Props_Json.xread Some W 3 (OStr stdin_word) (RInds [OSeq [OInt 2; OStr [97]]]) /\
  means ascii_space ascii_digit ascii_newline ascii_upper None (fun a => a) Props_Json.xread Some W 1 (OSeq [x_gate; x_gate]) (RGates [x_gate; x_gate]).
Proof.
  intros W. split; [exact ascii_unicode|]. split; [exact ascii_brackets|].
  assert (E : means ascii_space ascii_digit ascii_newline ascii_upper None (fun a => a) Props_Json.xread Some W 1 (OSeq [OSeq [OInt 2; OStr [97]]]) (RInds [OSeq [OInt 2; OStr [97]]])).
  { apply m_inds. constructor; [|constructor]. exists (OInt 2), (OStr [97]), []. split; [reflexivity|constructor]. }
  split; [|split].
  - eapply m_file with (o := OStr [91; 91; 50; 44; 32; 34; 97; 34; 93; 93]); try reflexivity; [discriminate|exact ab_other|].
    eapply m_json with (v := M_Json.VList [M_Json.VList [M_Json.VInt Z 2; M_Json.VStr Z [97%Z]]]); [left; reflexivity|intros _; reflexivity|vm_compute; reflexivity|exact E].
  - apply m_stdin. change (strip ascii_space (w_stdin W)) with [50; 32; 97].
    eapply m_text with (ls := [[50; 32; 97]]) (es := [(2%Z, [[97]])]); [discriminate| | | |exact E].
    + apply lines_last; [discriminate|]. intros c [<-|[<-|[<-|[]]]]; reflexivity.
    + eexists. split; [left; reflexivity|discriminate].
    + apply lists_entry; [|constructor]. exists [50], [32; 97]. split; [reflexivity|]. split; [apply (@denotes_one ascii_digit 50 2); reflexivity|]. split; [discriminate|].
      apply (@words_more ascii_space [32] [97] [] []); [discriminate|intros c [<-|[]]; reflexivity|split; [discriminate|intros c [<-|[]]; reflexivity]|constructor; intros c []].
  - apply m_gates; [discriminate|]. assert (G : gate_on_qubits (fun a => a) x_gate) by (exists [4; 4], (OStr [97]), [OInt 3]; split; reflexivity). repeat constructor; exact G.
Qed.
Example C57_lists_apply :
  tame (fun a => a) Some (fun a _ => tl a) (fun _ => Val true) x_entry /\ tame (fun a => a) Some (fun a _ => tl a) (fun _ => Val true) x_gate /\
  index_entry Some x_entry /\ gate_on_qubits (fun a => a) x_gate.
Proof.
  split; [|split; [|split]].
  - split; [right; eexists; reflexivity|]. split; intros y E; simpl in E; injection E as <-.
    + split; [left; reflexivity|eexists; reflexivity].
    + right. eexists. reflexivity.
  - split; [right; eexists; reflexivity|]. split; intros y E; simpl in E; injection E as <-.
    + split; [right; eexists; reflexivity|eexists; reflexivity].
    + right. eexists. reflexivity.
  - exists (OInt 2), (OStr [97]), [OStr [98]]. split; [reflexivity|constructor].
  - exists [4; 4], (OStr [97]), [OInt 3]. split; reflexivity.
Qed.
