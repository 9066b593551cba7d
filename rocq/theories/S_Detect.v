(** Specification vocabulary for what load_tn is given. *)
From Coq Require Import List Arith ZArith Bool.
Import ListNotations.
From Verif Require Import M_Base M_Text S_Text M_Detect.
From Verif Require M_Json.
Set Implicit Arguments.

Section Spec.
Variable space : nat -> bool.
Variable digit : nat -> option nat.
Variable newline : nat -> bool.
Variable upper : nat -> list nat.
Variable limit : option nat.
Variable N : Type.
Variable A : Type.
Variable shape : A -> list nat.
Variable F : Type.
Variable fread : M_Json.text -> F.
Variable fint : F -> option Z.
Local Notation obj := (obj N A F).
Local Notation reader := (reader N A F).

(** An int, or a float that is equal to one. *)
Inductive integer : obj -> Prop :=
| integer_int z : integer (OInt z)
| integer_float x z : fint x = Some z -> integer (OFloat (M_Json.Fin x)).
(** (dimension, name, ...) *)
Definition index_entry (x : obj) : Prop := exists d n ns, x = OSeq (d :: n :: ns) /\ integer d.
(** (matrix, (qubit, ...)): a square matrix of the right size, on one qubit or more *)
Definition gate_on_qubits (x : obj) : Prop :=
  exists a q qs, x = OSeq [OArr a; OSeq (q :: qs)] /\ shape a = [2 ^ S (length qs); 2 ^ S (length qs)].

(** The text is no list of indices and no QASM circuit. *)
Definition other_text (s : list nat) : Prop :=
  exists ls l, lines_are newline s ls /\ In l ls /\ l <> [] /\ starts_with slashes l = false /\
    (forall lim es, ~ lists space digit lim ls es) /\ forall k, In k ls -> starts_with openqasm (flat_map upper k) = false.

(** Brackets are neither spaces nor digits, and have no upper case. *)
Definition brackets : Prop := forall c, c = 91 \/ c = 123 -> space c = false /\ digit c = None /\ upper c = [c].

(** What has a length and items; no empty object, and no dict, whose items are not
    numbered. *)
Definition indexed (row : A -> nat -> A) (x : obj) : Prop := len shape x = None \/ exists y, item shape row fint x 0 = Val y.
(** An object whose parts are neither empty nor dicts nor infinite. *)
Definition tame (row : A -> nat -> A) (whole : A -> out bool) (x : obj) : Prop :=
  indexed row x /\ (forall y, item shape row fint x 0 = Val y -> indexed row y /\ exists b, is_int shape whole fint y = Val b) /\
  (forall y, item shape row fint x 1 = Val y -> indexed row y).
(** x[0] and len(x) say that x is (dimension, ...); x is (matrix, qubits). *)
Definition like_entry (row : A -> nat -> A) (whole : A -> out bool) (x : obj) : Prop :=
  exists k d, len shape x = Some k /\ 2 <= k /\ item shape row fint x 0 = Val d /\ is_int shape whole fint d = Val true.
Definition like_gate (row : A -> nat -> A) (x : obj) : Prop :=
  exists a qs k, len shape x = Some 2 /\ item shape row fint x 0 = Val (OArr a) /\ item shape row fint x 1 = Val qs /\
    len shape qs = Some k /\ shape a = [2 ^ k; 2 ^ k].

Variable W : world N A F.
(** The documented formats (app.py:206-243). [means n o r]: the object [o] stands for what the
    reader [r] is to read; it is wrapped in [n] files, texts and so on. *)
Inductive means : nat -> obj -> reader -> Prop :=
| m_net n : means 1 (ONet n) (RNet A F n)
| m_inds l : Forall index_entry l -> means 1 (OSeq l) (RInds l)
| m_gates l : l <> [] -> Forall gate_on_qubits l -> means 1 (OSeq l) (RGates l)
| m_text s ls es n r : s <> stdin_word -> lines_are newline s ls -> (exists l, In l ls /\ l <> []) -> lists space digit limit ls es ->
    means n (OSeq (map (@tuple_of N A F) es)) r -> means (S n) (OStr s) r
| m_qasm s pre l ls : s <> stdin_word -> lines_are newline s (pre ++ l :: ls) -> (forall k, In k pre -> k = [] \/ starts_with slashes k = true) ->
    l <> [] -> starts_with slashes l = false ->
    starts_with openqasm (flat_map upper l) = true -> means 1 (OStr s) (RQasm N A F s)
| m_stdin n r : means n (OStr (strip space (w_stdin W))) r -> means (S n) (OStr stdin_word) r
| m_file s o n r : s <> stdin_word -> other_text s -> w_valid W s = true -> w_exists W s = Val true -> w_file W s = Val o ->
    means n o r -> means (S n) (OStr s) r
| m_json c s v n r : c = 91 \/ c = 123 -> (w_valid W (c :: s) = true -> w_exists W (c :: s) = Val false) ->
    M_Json.loads fread (map Z.of_nat (c :: s)) = Some v -> means n (of_json N A v) r -> means (S n) (OStr (c :: s)) r
| m_cirq l v : In (OStr cirq_type, v) l -> means 1 (ODict l) (RCirq (ODict l)).
End Spec.
Arguments index_entry {N A F} fint x. Arguments gate_on_qubits {N A} shape {F} x.
Arguments like_entry {N A} shape {F} fint row whole x. Arguments like_gate {N A} shape {F} fint row x. Arguments tame {N A} shape {F} fint row whole x.
