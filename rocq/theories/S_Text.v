(** Specification vocabulary for strings that list indices. *)
From Coq Require Import List Arith ZArith.
Import ListNotations.
From Verif Require Import M_Text.
Set Implicit Arguments.

Section Text.
Variable space : nat -> bool.
Variable digit : nat -> option nat.
Variable newline : nat -> bool.
Variable upper : nat -> list nat.

(** What is used of Unicode: line boundaries and the blank are spaces; digits, '#' and
    '/' are not; in upper case no space, no digit and not '#' begins with 'O'. *)
Record unicode : Prop := {
  u_newline : forall c, newline c = true -> space c = true;
  u_blank : space blank = true;
  u_cr : newline cr = true;
  u_lf : newline lf = true;
  u_digit : forall c, digit c <> None -> space c = false;
  u_hash : space hash = false /\ digit hash = None;
  u_slash : space 47 = false /\ digit 47 = None;
  u_upper : forall c, space c = true \/ digit c <> None \/ c = hash -> exists d l, upper c = d :: l /\ d <> 79 }.

(** The lines of a text. A line ends with a line boundary, or with the text; a carriage
    return and a line feed are one boundary. *)
Inductive lines_are : list nat -> list (list nat) -> Prop :=
| lines_none : lines_are [] []
| lines_last l : l <> [] -> (forall c, In c l -> newline c = false) -> lines_are l [l]
| lines_crlf l s ls : (forall c, In c l -> newline c = false) -> lines_are s ls -> lines_are (l ++ cr :: lf :: s) (l :: ls)
| lines_one l c s ls : (forall x, In x l -> newline x = false) -> newline c = true -> ~ (c = cr /\ exists s', s = lf :: s') ->
    lines_are s ls -> lines_are (l ++ c :: s) (l :: ls).

(** Decimal notation. *)
Inductive denotes : list nat -> Z -> Prop :=
| denotes_one c k : digit c = Some k -> denotes [c] (Z.of_nat k)
| denotes_more l z c k : denotes l z -> digit c = Some k -> denotes (l ++ [c]) (10 * z + Z.of_nat k)%Z.

Definition spaces (l : list nat) : Prop := forall c, In c l -> space c = true.
Definition word (l : list nat) : Prop := l <> [] /\ forall c, In c l -> space c = false.
(** Words, each after at least one space, then spaces. *)
Inductive words_are : list nat -> list (list nat) -> Prop :=
| words_none l : spaces l -> words_are l []
| words_more sp w l ws : sp <> [] -> spaces sp -> word w -> words_are l ws -> words_are (sp ++ w ++ l) (w :: ws).
(** A line "dimension name name ...", in which the dimension has at most [limit] digits. *)
Definition entry_line (limit : option nat) (l : list nat) (e : Z * list (list nat)) : Prop :=
  exists n rest, l = n ++ rest /\ denotes n (fst e) /\ (forall k, limit = Some k -> length n <= k) /\ words_are rest (snd e).
Definition blank_line (l : list nat) : Prop := spaces l.
Definition comment_line (l : list nat) : Prop := exists l', l = hash :: l'.

(** The lines list the entries; blank lines and comments do not matter. *)
Inductive lists (limit : option nat) : list (list nat) -> list (Z * list (list nat)) -> Prop :=
| lists_nil : lists limit [] []
| lists_skip l ls es : blank_line l \/ comment_line l -> lists limit ls es -> lists limit (l :: ls) es
| lists_entry l e ls es : entry_line limit l e -> lists limit ls es -> lists limit (l :: ls) (e :: es).
End Text.
