(** Proofs about how load_tn finds out what it is given. *)
From Coq Require Import List Arith ZArith Bool Lia.
Import ListNotations.
From Verif Require Import M_Base M_Text S_Text M_Detect S_Detect P_Base P_Text.
From Verif Require M_Json S_Json P_Json P_JsonTn.
Set Implicit Arguments. Unset Strict Implicit.

Lemma same_ok a : forall b, same_text a b = true <-> a = b.
Proof.
  induction a as [|x a IH]; intros [|y b]; simpl; split; try discriminate; auto.
  - rewrite andb_true_iff, Nat.eqb_eq, IH. intros [-> ->]. auto.
  - intros E. injection E as -> ->. rewrite andb_true_iff, Nat.eqb_eq, IH. auto.
Qed.
Lemma same_not a b : a <> b -> same_text a b = false.
Proof. intros H. destruct (same_text a b) eqn:E; auto. apply same_ok in E. contradiction. Qed.

Lemma all_true X (f : X -> out bool) l : all_ f l = Val true <-> Forall (fun x => f x = Val true) l.
Proof.
  induction l as [|x l IH]; simpl; [split; auto|]. split.
  - intros H. destruct (f x) as [[]|e] eqn:E; simpl in H; try discriminate. constructor; auto. apply IH. auto.
  - intros H. inversion H as [|? ? Hx Hl]; subst. rewrite Hx. simpl. apply IH. auto.
Qed.
Lemma all_val X (f : X -> out bool) l : Forall (fun x => exists b, f x = Val b) l -> exists b, all_ f l = Val b.
Proof. induction 1 as [|x l (b & Hb) H IH]; simpl; [eauto|]. rewrite Hb. destruct b; simpl; eauto. Qed.
Lemma all_false X (f : X -> out bool) l : Forall (fun x => exists b, f x = Val b) l -> (exists x, In x l /\ f x = Val false) -> all_ f l = Val false.
Proof.
  intros H (x & Hx & Hf). destruct (all_val H) as ([] & E); auto. apply all_true in E. rewrite Forall_forall in E. rewrite (E x Hx) in Hf. discriminate.
Qed.

Section Detect.
Variable space : nat -> bool.
Variable digit : nat -> option nat.
Variable newline : nat -> bool.
Variable upper : nat -> list nat.
Variable limit : option nat.
Variable N : Type.
Variable A : Type.
Variable shape : A -> list nat.
Variable row : A -> nat -> A.
Variable whole : A -> out bool.
Variable F : Type.
Variable fread : M_Json.text -> F.
Variable fint : F -> option Z.
Variable W : world N A F.
Hypothesis U : unicode space digit newline upper.
Hypothesis B : brackets space digit upper.
Local Notation obj := (obj N A F).
Local Notation detect := (detect space digit newline upper limit shape row whole fread fint W).
Local Notation is_entry := (is_entry shape row whole fint).
Local Notation is_gate := (is_gate shape row fint).
Local Notation finish := (finish shape row whole fint).
Local Notation read_text := (read_text space digit newline upper limit).

(** ** Texts *)
Lemma line_first s ls : lines_are newline s ls -> forall c s', s = c :: s' -> newline c = false -> exists l ls', ls = (c :: l) :: ls'.
Proof.
  intros H c s' E Hc. destruct H as [|l H1 H2|l s ls H1 H2|l d s ls H1 Hd H3 H4].
  - discriminate.
  - subst. eauto.
  - destruct l as [|x l]; simpl in E; injection E as E1 E2; subst; [exfalso; pose proof (u_cr U); congruence|eauto].
  - destruct l as [|x l]; simpl in E; injection E as E1 E2; subst; [exfalso; congruence|eauto].
Qed.

Lemma read_bracket c s : c = 91 \/ c = 123 -> read_text (c :: s) = Ok Other.
Proof.
  intros Hc. destruct (B Hc) as (Hs & Hd & Hu).
  assert (Hn : newline c = false). { destruct (newline c) eqn:E; auto. apply (u_newline U) in E. congruence. }
  destruct (@line_first (c :: s) (splitlines newline [] (c :: s))) with (c := c) (s' := s) as (l & ls & E); auto.
  { apply (@lines_ex newline (length (c :: s)) (c :: s) []); auto; [intros x []|apply (u_cr U)]. }
  unfold M_Text.read_text. rewrite E. cbn [filter].
  assert (Hsl : starts_with slashes (c :: l) = false) by (destruct Hc as [-> | ->]; reflexivity).
  rewrite Hsl. cbn [length Nat.eqb negb andb].
  assert (Hq : starts_with openqasm (flat_map upper (c :: l)) = false) by (cbn [flat_map]; rewrite Hu; destruct Hc as [-> | ->]; reflexivity).
  rewrite Hq. cbn [existsb].
  assert (Hb : bad space digit (c :: l) = true); [|rewrite Hb; reflexivity].
  unfold bad. rewrite !andb_true_iff, !negb_true_iff. split; [split|].
  - apply visible_ok. intros C. rewrite (C c (or_introl eq_refl)) in Hs. discriminate.
  - destruct Hc as [-> | ->]; reflexivity.
  - destruct (matches (entry_re space digit) (c :: l)) eqn:Em; auto. exfalso.
    destruct (matches_entry Em) as (e & n & rest & E1 & E2 & _). destruct (denotes_ok E2) as (Hne & Hdig & _).
    destruct n as [|x n]; [congruence|]. injection E1 as -> _. apply (Hdig x); simpl; auto.
Qed.

Lemma read_other s : other_text space digit newline upper s -> read_text s = Ok Other.
Proof.
  intros (ls & l & Hls & Hl & Hne & Hsl & Hno & Hq). pose proof (@text_inv space digit newline upper limit U s) as (ls' & Hls' & H).
  assert (ls' = ls). { pose proof (lines_fun (u_cr U) Hls). pose proof (lines_fun (u_cr U) Hls'). congruence. } subst ls'.
  destruct (read_text s) as [[|es|]|e] eqn:E; auto.
  - exfalso. unfold M_Text.read_text in E. rewrite (lines_fun (u_cr U) Hls) in E. destruct (filter _ ls) as [|x k] eqn:Ef; [discriminate|].
    assert (Hx : In x ls). { apply (proj1 (filter_In (fun x => negb (length x =? 0) && negb (starts_with slashes x)) x ls)). rewrite Ef. left. auto. }
    rewrite (Hq _ Hx) in E. destruct (existsb _ ls); [discriminate|]. match type of E with bind ?z _ = _ => destruct z end; discriminate.
  - exfalso. exact (Hno _ _ H).
  - exfalso. destruct H as [H|((es & H) & _)]; [|exact (Hno _ _ H)]. destruct (H l Hl) as [->|(l' & ->)]; [congruence|]. simpl in Hsl. discriminate.
Qed.

Lemma read_qasm s pre l ls : lines_are newline s (pre ++ l :: ls) -> (forall k, In k pre -> k = [] \/ starts_with slashes k = true) ->
  l <> [] -> starts_with slashes l = false -> starts_with openqasm (flat_map upper l) = true -> read_text s = Ok Qasm.
Proof.
  intros Hls Hp Hne Hsl Hq. unfold M_Text.read_text. rewrite (lines_fun (u_cr U) Hls).
  assert (E : filter (fun x => negb (length x =? 0) && negb (starts_with slashes x)) (pre ++ l :: ls) = l :: filter (fun x => negb (length x =? 0) && negb (starts_with slashes x)) ls).
  { clear - Hp Hne Hsl. induction pre as [|k pre IH]; cbn [app filter].
    - rewrite Hsl. destruct l; [congruence|reflexivity].
    - destruct (Hp k (or_introl eq_refl)) as [->|H]; [cbn|rewrite H, andb_false_r]; apply IH; intros; apply Hp; right; auto. }
  rewrite E, Hq. reflexivity.
Qed.

(** ** Elements *)
Lemma entry_yes (x : obj) : index_entry fint x -> is_entry x = Val true.
Proof.
  intros (d & n & ns & -> & H). unfold M_Detect.is_entry, is_random_access, len_is, with_item. cbn.
  inversion H; subst; cbn; [|match goal with H : fint _ = _ |- _ => rewrite H end]; reflexivity.
Qed.
Lemma pow2_pos k : exists n, 2 ^ k = S n.
Proof. exists (2 ^ k - 1). pose proof (Nat.pow_nonzero 2 k). lia. Qed.
Lemma gate_yes (x : obj) : gate_on_qubits shape x -> is_gate x = Val true.
Proof.
  intros (a & q & qs & -> & H). destruct (pow2_pos (S (length qs))) as (n & E). rewrite E in H.
  unfold M_Detect.is_gate, is_matrix, is_random_access, len_is, with_item, rows. cbn [len item nth_error length]. rewrite H, Nat.eqb_refl, E. cbn. rewrite Nat.eqb_refl. reflexivity.
Qed.
Lemma gate_not_entry (x : obj) : gate_on_qubits shape x -> is_entry x = Val false.
Proof.
  intros (a & q & qs & -> & H). unfold M_Detect.is_entry, is_random_access, len_is, with_item. cbn [len item nth_error length andb_ is_int]. rewrite H.
  cbn [fold_right]. rewrite Nat.mul_1_r. assert (E : (2 ^ S (length qs) * 2 ^ S (length qs) =? 1) = false); [|rewrite E; reflexivity].
  apply Nat.eqb_neq. simpl. pose proof (Nat.pow_nonzero 2 (length qs)). nia.
Qed.
Lemma entry_not_gate (x : obj) : index_entry fint x -> is_gate x = Val false.
Proof.
  intros (d & n & ns & -> & H). unfold M_Detect.is_gate, is_matrix, is_random_access, len_is, with_item. cbn [len item nth_error length andb_].
  destruct ns; [|reflexivity]. cbn [Nat.eqb andb_]. inversion H; subst; reflexivity.
Qed.

Lemma finish_seq (l : list obj) : elements shape row (OSeq l) = Val l.
Proof. reflexivity. Qed.

Lemma means_ok n o r : means space digit newline upper limit shape fread fint W n o r -> forall fuel, n <= fuel -> detect fuel o = Val r.
Proof.
  induction 1; intros fuel Hf; (destruct fuel as [|f]; [lia|]); cbn [M_Detect.detect].
  - reflexivity.
  - unfold M_Detect.finish. cbn [elements]. rewrite (proj2 (all_true is_entry l)); [reflexivity|]. eapply Forall_impl; [|eassumption]. intros x. apply entry_yes.
  - unfold M_Detect.finish. cbn [elements]. rewrite (all_false (f := is_entry)).
    + rewrite (proj2 (all_true is_gate l)); [reflexivity|]. eapply Forall_impl; [|eassumption]. intros x. apply gate_yes.
    + eapply Forall_impl; [|eassumption]. intros x Hx. exists false. apply gate_not_entry. auto.
    + destruct l as [|x l]; [congruence|]. exists x. split; [left; auto|]. apply gate_not_entry. inversion H0; auto.
  - rewrite (same_not H). rewrite (@text_ok space digit newline upper limit U s ls es H0 H2 H1). apply IHmeans. lia.
  - rewrite (same_not H). rewrite (read_qasm H0 H1 H2 H3 H4). reflexivity.
  - rewrite (proj2 (same_ok stdin_word stdin_word) eq_refl). apply IHmeans. lia.
  - rewrite (same_not H). rewrite (read_other H0), H1, H2, H3. apply IHmeans. lia.
  - assert (E : same_text (c :: s) stdin_word = false) by (destruct H as [-> | ->]; reflexivity). rewrite E, (read_bracket s H).
    assert (E2 : (if w_valid W (c :: s) then w_exists W (c :: s) else Val false) = Val false) by (destruct (w_valid W (c :: s)); auto). rewrite E2, H1. apply IHmeans. lia.
  - assert (E : existsb (fun e : obj * obj => match fst e with OStr k => same_text k cirq_type | _ => false end) l = true); [|rewrite E; reflexivity].
    apply existsb_exists. exists (OStr cirq_type, v). split; auto.
Qed.

(** ** Nothing else *)
Lemma access_true (x : obj) : is_random_access shape row fint x = Val true -> exists n y, len shape x = Some n /\ item shape row fint x 0 = Val y.
Proof. unfold is_random_access. destruct (len shape x) as [n|]; [|discriminate]. destruct (item shape row fint x 0) as [y|[]]; try discriminate. eauto. Qed.

Lemma entry_true (x : obj) : is_entry x = Val true <-> like_entry shape fint row whole x.
Proof.
  unfold M_Detect.is_entry, like_entry, len_is, with_item. split.
  - intros H. destruct (is_random_access shape row fint x) as [[]|e] eqn:E; try discriminate. destruct (access_true E) as (n & y & L & I).
    rewrite L in H. cbn [andb_] in H. destruct (1 <? n) eqn:E1; try discriminate. apply Nat.ltb_lt in E1. rewrite I in H. exists n, y. auto.
  - intros (k & d & L & H2 & I & H). unfold is_random_access. rewrite L, I. cbn [andb_]. rewrite (proj2 (Nat.ltb_lt 1 k)) by lia. auto.
Qed.
Lemma gate_true (x : obj) : is_gate x = Val true -> like_gate shape fint row x.
Proof.
  unfold M_Detect.is_gate, like_gate, len_is, with_item. intros H.
  destruct (is_random_access shape row fint x) as [[]|e] eqn:E; try discriminate. destruct (access_true E) as (n & y & L & I). rewrite L, I in H. cbn [andb_] in H.
  destruct (2 =? n) eqn:E1; try discriminate. apply Nat.eqb_eq in E1. subst n. cbn [andb_] in H.
  unfold is_matrix in H. destruct (is_random_access shape row fint y) as [[]|e] eqn:E2; try discriminate. cbn [andb_] in H.
  destruct y; try discriminate. destruct (shape a) as [|r [|c [|]]] eqn:Es; try discriminate. destruct (r =? c) eqn:Er; try discriminate. apply Nat.eqb_eq in Er. subst c.
  cbn [andb_] in H. destruct (item shape row fint x 1) as [qs|] eqn:I1; try discriminate.
  destruct (is_random_access shape row fint qs) as [[]|e] eqn:E3; try discriminate. destruct (access_true E3) as (k & z & Lq & _). rewrite Lq in H. cbn [andb_ rows] in H. rewrite Es in H.
  injection H as H. apply Nat.eqb_eq in H. exists a, qs, k. subst r. auto.
Qed.

Lemma finish_only (o : obj) r : finish o = Val r -> exists l, elements shape row o = Val l /\
  (r = RInds l /\ Forall (like_entry shape fint row whole) l \/ r = RGates l /\ Forall (like_gate shape fint row) l /\ ~ Forall (like_entry shape fint row whole) l).
Proof.
  unfold M_Detect.finish. destruct (elements shape row o) as [l|] eqn:E; [|discriminate]. intros H. exists l. split; auto.
  destruct (all_ is_entry l) as [[]|e] eqn:E1; try discriminate.
  - injection H as <-. left. split; auto. apply all_true in E1. eapply Forall_impl; [|exact E1]. intros x. apply entry_true.
  - destruct (all_ is_gate l) as [[]|e] eqn:E2; try discriminate. injection H as <-. right. split; auto. split.
    + apply all_true in E2. eapply Forall_impl; [|exact E2]. intros x. apply gate_true.
    + intros C. assert (all_ is_entry l = Val true); [|congruence]. apply all_true. eapply Forall_impl; [|exact C]. intros x. apply entry_true.
Qed.

Lemma indexed_access (x : obj) : indexed shape fint row x -> exists b, is_random_access shape row fint x = Val b.
Proof. unfold is_random_access. intros [->|(y & ->)]; [eauto|]. destruct (len shape x); eauto. Qed.
Lemma matrix_val (x : obj) : indexed shape fint row x -> exists b, is_matrix shape row fint x = Val b.
Proof. intros H. unfold is_matrix. destruct (indexed_access H) as ([] & E); rewrite E; cbn [andb_]; eauto. Qed.
Lemma tame_entry (x : obj) : tame shape fint row whole x -> exists b, is_entry x = Val b.
Proof.
  intros (H1 & H2 & _). unfold M_Detect.is_entry, len_is, with_item. destruct (indexed_access H1) as ([] & E); rewrite E; cbn [andb_]; eauto.
  destruct (access_true E) as (n & y & L & I). rewrite L, I. destruct (1 <? n); cbn [andb_]; eauto. destruct (H2 _ I) as (_ & H). exact H.
Qed.
Lemma second (x y : obj) : len shape x = Some 2 -> item shape row fint x 0 = Val y -> (exists z, item shape row fint x 1 = Val z) \/ exists l, x = ODict l.
Proof.
  intros L I. destruct x; try discriminate.
  - simpl in L. destruct s as [|a [|b s]]; try discriminate. left. simpl. eauto.
  - simpl in L. destruct l as [|a [|b l]]; try discriminate. left. simpl. eauto.
  - eauto.
  - simpl in *. destruct (shape a) as [|n k]; [discriminate|]. injection L as ->. left. simpl. eauto.
Qed.
Lemma tame_gate (x : obj) : tame shape fint row whole x -> (forall l, x <> ODict l) -> exists b, is_gate x = Val b.
Proof.
  intros (H1 & H2 & H3) Hd. unfold M_Detect.is_gate, len_is, with_item. destruct (indexed_access H1) as ([] & E); rewrite E; cbn [andb_]; eauto.
  destruct (access_true E) as (n & y & L & I). rewrite L, I. destruct (2 =? n) eqn:En; cbn [andb_]; eauto. apply Nat.eqb_eq in En. subst n.
  destruct (second L I) as [(z & Iz)|(l & ->)]; [|exfalso; exact (Hd l eq_refl)]. rewrite Iz.
  destruct (H2 _ I) as (Hy & _). destruct (matrix_val Hy) as ([] & Ey); rewrite Ey; cbn [andb_]; eauto.
  destruct (indexed_access (H3 _ Iz)) as ([] & Ez); rewrite Ez; cbn [andb_]; eauto. destruct (access_true Ez) as (k & w & Lz & _). rewrite Lz. eauto.
Qed.

Lemma list_cases f (l : list obj) : Forall (tame shape fint row whole) l -> (forall d, ~ In (ODict d) l) ->
  detect (S f) (OSeq l) = Val (RInds l) /\ Forall (like_entry shape fint row whole) l \/
  detect (S f) (OSeq l) = Val (RGates l) /\ Forall (like_gate shape fint row) l \/
  detect (S f) (OSeq l) = Raise TypeError /\ ~ Forall (index_entry fint) l /\ ~ Forall (gate_on_qubits shape) l.
Proof.
  intros H Hd. cbn [M_Detect.detect]. unfold M_Detect.finish. cbn [elements].
  destruct (@all_val _ is_entry l) as (b & E1); [eapply Forall_impl; [|exact H]; intros x; apply tame_entry|]. rewrite E1. destruct b.
  - left. split; auto. apply all_true in E1. eapply Forall_impl; [|exact E1]. intros x. apply entry_true.
  - right. destruct (@all_val _ is_gate l) as (b & E2).
    { rewrite Forall_forall in *. intros x Hx. apply tame_gate; auto. intros d ->. exact (Hd _ Hx). }
    rewrite E2. destruct b; [left|right]; (split; [reflexivity|]).
    + apply all_true in E2. eapply Forall_impl; [|exact E2]. intros x. apply gate_true.
    + split; intros C.
      * assert (all_ is_entry l = Val true); [|congruence]. apply all_true. eapply Forall_impl; [|exact C]. intros x. apply entry_yes.
      * assert (all_ is_gate l = Val true); [|congruence]. apply all_true. eapply Forall_impl; [|exact C]. intros x. apply gate_yes.
Qed.

Lemma mixed f (l : list obj) : Forall (fun x => index_entry fint x \/ gate_on_qubits shape x) l ->
  (exists x, In x l /\ index_entry fint x) -> (exists x, In x l /\ gate_on_qubits shape x) -> detect (S f) (OSeq l) = Raise TypeError.
Proof.
  intros H (x & Hx & Ex) (y & Hy & Gy). cbn [M_Detect.detect]. unfold M_Detect.finish. cbn [elements].
  rewrite (all_false (f := is_entry)).
  - rewrite (all_false (f := is_gate)); [reflexivity| |exists x; split; auto; apply entry_not_gate; auto].
    eapply Forall_impl; [|exact H]. intros z [Hz|Hz]; [exists false; apply entry_not_gate; auto|exists true; apply gate_yes; auto].
  - eapply Forall_impl; [|exact H]. intros z [Hz|Hz]; [exists true; apply entry_yes; auto|exists false; apply gate_not_entry; auto].
  - exists y. split; auto. apply gate_not_entry. auto.
Qed.

(** A file that contains its own name. *)
Lemma itself s : s <> stdin_word -> other_text space digit newline upper s -> w_valid W s = true -> w_exists W s = Val true -> w_file W s = Val (OStr s) ->
  forall fuel, detect fuel (OStr s) = Raise RecursionError.
Proof.
  intros H1 H2 H3 H4 H5 fuel. induction fuel as [|f IH]; [reflexivity|]. cbn [M_Detect.detect]. rewrite (same_not H1), (read_other H2), H3, H4, H5. exact IH.
Qed.

(** What json.dumps writes. *)
Lemma json_list frepr l n r : S_Json.float_ok frepr fread -> S_Json.plain (M_Json.VList l) ->
  (let s := map Z.to_nat (M_Json.dumps frepr (M_Json.VList l)) in w_valid W s = true -> w_exists W s = Val false) ->
  means space digit newline upper limit shape fread fint W n (of_json N A (M_Json.VList l)) r ->
  forall fuel, n < fuel -> detect fuel (OStr (map Z.to_nat (M_Json.dumps frepr (M_Json.VList l)))) = Val r.
Proof.
  intros HF Hp Hno Hm fuel Hf. cbn zeta in Hno.
  assert (Hpr : S_Json.printable (M_Json.dumps frepr (M_Json.VList l))) by (apply (P_JsonTn.dumps_printable HF); apply (P_Json.norm_plain frepr Hp)).
  assert (Hz : map Z.of_nat (map Z.to_nat (M_Json.dumps frepr (M_Json.VList l))) = M_Json.dumps frepr (M_Json.VList l)).
  { rewrite map_map. rewrite <- (map_id (M_Json.dumps frepr (M_Json.VList l))) at 2. apply map_ext_in. intros c Hc. unfold S_Json.printable in Hpr. rewrite Forall_forall in Hpr.
    specialize (Hpr c Hc). lia. }
  pose proof (P_Json.round_trip HF Hp) as HR. rewrite <- Hz in HR.
  assert (Hs : exists s, map Z.to_nat (M_Json.dumps frepr (M_Json.VList l)) = 91 :: s) by (cbn [M_Json.dumps]; eexists; cbn [app map]; reflexivity).
  destruct Hs as (s & Es). rewrite Es in *. apply (@means_ok (S n)); [|lia].
  eapply m_json with (v := M_Json.VList l); auto.
Qed.
End Detect.
