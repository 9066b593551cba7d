(** C48: strings that list indices. *)
From Coq Require Import List Arith ZArith Bool Lia Cantor.
Import ListNotations.
From Verif Require Import M_Base M_Path M_PyTree M_Tensor M_TnApp M_Text S_TnApp S_Text P_Text P_TextLoad.
Local Open Scope nat_scope.

(** A string whose lines are "dimension name name ...", blank or comments is read as the
    list of these dimensions and names, however the spaces and line ends are chosen. *)
Theorem C48_reads_lists space digit newline upper limit s ls es : unicode space digit newline upper ->
  lines_are newline s ls -> lists space digit limit ls es -> (exists l, In l ls /\ l <> []) ->
  read_text space digit newline upper limit s = Ok (Inds es).
Proof. intros U. exact (@text_ok space digit newline upper limit U s ls es). Qed.
Print Assumptions C48_reads_lists.

(** Every string has lines; what is read as a list of indices is the list that they
    spell out; a string that is passed on to the other readers spells out no list; a
    string that raises has no line but empty ones and those that start with //, or has
    too long a number. *)
Theorem C48_reads_only_lists space digit newline upper limit s : unicode space digit newline upper ->
  exists ls, lines_are newline s ls /\
    match read_text space digit newline upper limit s with
    | Ok (Inds es) => lists space digit limit ls es
    | Ok _ => forall lim es, ~ lists space digit lim ls es
    | Err _ => (forall l, In l ls -> l = [] \/ exists l', l = slashes ++ l') \/ (exists es, lists space digit None ls es) /\ forall es, ~ lists space digit limit ls es
    end.
Proof. intros U. exact (@text_inv space digit newline upper limit U s). Qed.
Print Assumptions C48_reads_only_lists.

(** The network that is loaded, before fusing: a tensor for each name, with the indices
    (numbers of the entries) that list it; the listed dimensions; the indices marked by
    the two tokens as outputs and sparse indices. *)
Theorem C48_network (K : Type) code space digit newline upper limit s ls es o t : unicode space digit newline upper ->
  (forall v w, code v = code w -> v = w) -> lines_are newline s ls -> lists space digit limit ls es -> (exists l, In l ls /\ l <> []) ->
  o <> t -> (forall d ws, In (d, ws) es -> (1 <= d)%Z /\ exists w, In w ws /\ w <> o /\ w <> t) ->
  exists ns n, load_text space digit newline upper limit K code o t s = Ok (Some (map code ns, n)) /\ NoDup ns /\ length (n_list n) = length ns /\
    (forall w, In w ns <-> w <> o /\ w <> t /\ exists d ws, In (d, ws) es /\ In w ws) /\
    (forall k w, nth_error ns k = Some w -> exists T, nth_error (n_list n) k = Some T /\ t_array T = None /\
       forall i, In i (t_inds T) <-> exists d ws, nth_error es i = Some (d, ws) /\ In w ws) /\
    (forall i d, dict_get (n_dims n) i = Ok d <-> exists ws, nth_error es i = Some (d, ws)) /\
    (forall i, In i (n_out n) <-> exists d ws, nth_error es i = Some (d, ws) /\ In o ws) /\
    (forall i, In i (n_sparse n) <-> exists d ws, nth_error es i = Some (d, ws) /\ In t ws).
Proof.
  intros U Hc Hl Hs Hne Hot Hes. destruct (@load_words K code Hc es o t Hot Hes) as (ns & n & E & H). exists ns, n. split; [|exact H].
  unfold load_text. rewrite (@text_ok space digit newline upper limit U s ls es Hl Hs Hne). cbn [bind]. unfold coded in E. rewrite E. reflexivity.
Qed.
Print Assumptions C48_network.

(** ** ASCII *)
Definition ascii_space (c : nat) : bool := ((9 <=? c) && (c <=? 13)) || ((28 <=? c) && (c <=? 32)).
Definition ascii_digit (c : nat) : option nat := if (48 <=? c) && (c <=? 57) then Some (c - 48) else None.
Definition ascii_newline (c : nat) : bool := ((10 <=? c) && (c <=? 13)) || ((28 <=? c) && (c <=? 30)).
Definition ascii_upper (c : nat) : list nat := if (97 <=? c) && (c <=? 122) then [c - 32] else [c].
Lemma ascii_unicode : unicode ascii_space ascii_digit ascii_newline ascii_upper.
Proof.
  assert (D : forall c, ascii_digit c <> None -> 48 <= c <= 57). { intros c. unfold ascii_digit. destruct (48 <=? c) eqn:E1; [|cbn; congruence]. destruct (c <=? 57) eqn:E2; [|cbn; congruence]. apply Nat.leb_le in E1, E2. lia. }
  assert (S' : forall c, ascii_space c = true <-> 9 <= c <= 13 \/ 28 <= c <= 32). { intros c. unfold ascii_space. rewrite orb_true_iff, !andb_true_iff, !Nat.leb_le. lia. }
  constructor; try reflexivity; try (split; reflexivity).
  - intros c. rewrite S'. unfold ascii_newline. rewrite orb_true_iff, !andb_true_iff, !Nat.leb_le. lia.
  - intros c H. apply D in H. destruct (ascii_space c) eqn:E; auto. apply S' in E. lia.
  - intros c H. assert (Hc : c < 58). { destruct H as [H|[H|H]]; [apply S' in H; lia|apply D in H; lia|subst; unfold hash; lia]. }
    exists c, []. unfold ascii_upper. rewrite (proj2 (Nat.leb_gt 97 c)) by lia. split; [reflexivity|lia].
Qed.
(** A numbering of strings. *)
Fixpoint number (l : list nat) : nat := match l with [] => 0 | c :: l' => S (to_nat (c, number l')) end.
Lemma number_inj v : forall w, number v = number w -> v = w.
Proof.
  induction v as [|c v IH]; intros [|d w] E; auto; try discriminate. cbn [number] in E. apply eq_add_S in E.
  assert (E2 : (c, number v) = (d, number w)) by (rewrite <- (cancel_of_to (c, number v)), <- (cancel_of_to (d, number w)), E; reflexivity). inversion E2; subst. f_equal. auto.
Qed.

(** The documentation asks for lines "dimension name name ..." in a string. Blanks in
    front of a dimension, as in an indented string, are not accepted: " 2 a" is read as
    no list. *)
Theorem C48_indented_refuted : exists s e, entry_line ascii_space ascii_digit None s e /\ read_text ascii_space ascii_digit ascii_newline ascii_upper None s = Ok (Inds [e]) /\
  read_text ascii_space ascii_digit ascii_newline ascii_upper None (blank :: s) = Ok Other.
Proof.
  exists [50; 32; 97], (2%Z, [[97]]). split; [|split; reflexivity].
  exists [50], [32; 97]. split; [reflexivity|]. split; [apply (@denotes_one ascii_digit 50 2); reflexivity|]. split; [discriminate|].
  apply (@words_more ascii_space [32] [97] [] []); [discriminate|intros c [<-|[]]; reflexivity|split; [discriminate|intros c [<-|[]]; reflexivity]|constructor; intros c []].
Qed.
Print Assumptions C48_indented_refuted.
(** The empty list is a list of indices; the empty string, and a string of empty lines,
    raises. *)
Theorem C48_empty_refuted : load_inds nat [] 0 1 = Ok ([], mkN [] [] [] [] []) /\
  read_text ascii_space ascii_digit ascii_newline ascii_upper None [] = Err Throw /\ read_text ascii_space ascii_digit ascii_newline ascii_upper None [lf; lf] = Err Throw.
Proof. split; [reflexivity|]. split; reflexivity. Qed.
Print Assumptions C48_empty_refuted.

(** "# c\r\n12 a\t b \n\n3 b *\n" *)
Definition ex_text : list nat := [35; 32; 99; 13; 10; 49; 50; 32; 97; 9; 32; 98; 32; 10; 10; 51; 32; 98; 32; 42; 10].
Example C48_applies : lines_are ascii_newline ex_text [[35; 32; 99]; [49; 50; 32; 97; 9; 32; 98; 32]; []; [51; 32; 98; 32; 42]] /\
  lists ascii_space ascii_digit (Some 20) [[35; 32; 99]; [49; 50; 32; 97; 9; 32; 98; 32]; []; [51; 32; 98; 32; 42]] [(12%Z, [[97]; [98]]); (3%Z, [[98]; [42]])] /\
  read_text ascii_space ascii_digit ascii_newline ascii_upper (Some 20) ex_text = Ok (Inds [(12%Z, [[97]; [98]]); (3%Z, [[98]; [42]])]) /\
  [42] <> [47] /\ (forall d ws, In (d, ws) [(12%Z, [[97]; [98]]); (3%Z, [[98]; [42]])] -> (1 <= d)%Z /\ exists w, In w ws /\ w <> [42] /\ w <> [47]).
Proof.
  split. { destruct (@C48_reads_only_lists ascii_space ascii_digit ascii_newline ascii_upper (Some 20) ex_text ascii_unicode) as (ls & H & _). pose proof (lines_fun (u_cr ascii_unicode) H) as E. cbv in E. rewrite E. exact H. }
  split. { destruct (@C48_reads_only_lists ascii_space ascii_digit ascii_newline ascii_upper (Some 20) ex_text ascii_unicode) as (ls & H & G). pose proof (lines_fun (u_cr ascii_unicode) H) as E. cbv in E. rewrite E. exact G. }
  split; [reflexivity|]. split; [discriminate|]. intros d ws [E|[E|[]]]; inversion E; subst; (split; [discriminate|]); [exists [97]|exists [98]]; repeat split; try discriminate; cbn; auto.
Qed.
