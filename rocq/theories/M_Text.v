(** Model of how load_tn reads a string (tnco/app/app.py:419-462), up to the point where
    a list of indices is loaded (M_TnApp.load_inds) or the string is no such list.

    A string is a list of code points. What Python takes from the Unicode database are
    parameters: [space] (str.isspace and \s), [digit] (\d and int, with the value),
    [newline] (the line boundaries of str.splitlines) and [upper] (str.upper of a
    character). [limit] is Python's limit on the number of digits that int accepts.
    The string 'stdin', which is replaced by what is read there, is not modelled. *)
From Verif Require Import M_Base M_Path M_PyTree M_TnApp.
Set Implicit Arguments.

(** Regular expressions: a class of characters, one after the other, repetition, and $.
    A line has no newline, so that $ holds at its end only. *)
Inductive regex := Class (p : nat -> bool) | Cat (a b : regex) | Star (a : regex) | End_.
Definition Plus (a : regex) : regex := Cat a (Star a).

(** What may remain of a string after a match at its beginning. *)
Fixpoint rests (r : regex) (l : list nat) : list (list nat) :=
  match r with
  | Class p => match l with c :: l' => if p c then [l'] else [] | [] => [] end
  | Cat a b => flat_map (rests b) (rests a l)
  | Star a =>
      (fix star (fuel : nat) (l : list nat) : list (list nat) :=
         l :: match fuel with
              | O => []
              | S f => flat_map (fun l' => if length l' <? length l then star f l' else []) (rests a l)
              end) (length l) l
  | End_ => match l with [] => [[]] | _ => [] end
  end.
(** re.match(r, l) is not None *)
Definition matches (r : regex) (l : list nat) : bool := match rests r l with [] => false | _ => true end.

Fixpoint starts_with (p l : list nat) : bool :=
  match p, l with
  | [], _ => true
  | x :: p', y :: l' => (x =? y) && starts_with p' l'
  | _, _ => false
  end.

Definition hash := 35. Definition blank := 32. Definition cr := 13. Definition lf := 10.
(** 'OPENQASM' and '//' *)
Definition openqasm := [79; 80; 69; 78; 81; 65; 83; 77].
Definition slashes := [47; 47].

Section Text.
Variable space : nat -> bool.
Variable digit : nat -> option nat.
Variable newline : nat -> bool.
Variable upper : nat -> list nat.
Variable limit : option nat.

(** str.splitlines; [cur] is the line so far. *)
Fixpoint splitlines (cur l : list nat) : list (list nat) :=
  match l with
  | [] => match cur with [] => [] | _ => [cur] end
  | c :: l' =>
      if newline c then
        cur :: match l' with
               | d :: l'' => if (c =? cr) && (d =? lf) then splitlines [] l'' else splitlines [] l'
               | [] => []
               end
      else splitlines (cur ++ [c]) l'
  end.

Definition is_digit (c : nat) : bool := match digit c with Some _ => true | None => false end.
(** r'\d+(\s+\S+)*\s*$' (app.py:448) *)
Definition entry_re : regex :=
  Cat (Plus (Class is_digit)) (Cat (Star (Cat (Plus (Class space)) (Plus (Class (fun c => negb (space c)))))) (Cat (Star (Class space)) End_)).
(** r'\s*\S' (app.py:436) *)
Definition visible_re : regex := Cat (Star (Class space)) (Class (fun c => negb (space c))).
(** r'^(?=\s*\S)(?!#)(?!\d+(\s+\S+)*\s*$).*' (app.py:436) *)
Definition bad (l : list nat) : bool := matches visible_re l && negb (starts_with [hash] l) && negb (matches entry_re l).

(** re.sub(r'\s+', ' ', x) (app.py:446); [inside] tells whether the previous character
    was a space. *)
Fixpoint squash (inside : bool) (l : list nat) : list nat :=
  match l with
  | [] => []
  | c :: l' => if space c then (if inside then squash true l' else blank :: squash true l') else c :: squash false l'
  end.
(** str.strip *)
Fixpoint lstrip (l : list nat) : list nat := match l with c :: l' => if space c then lstrip l' else l | [] => [] end.
Definition strip (l : list nat) : list nat := rev (lstrip (rev (lstrip l))).
(** str.split(); [cur] is the word so far. *)
Fixpoint split (cur l : list nat) : list (list nat) :=
  match l with
  | [] => match cur with [] => [] | _ => [cur] end
  | c :: l' => if space c then match cur with [] => split [] l' | _ => cur :: split [] l' end else split (cur ++ [c]) l'
  end.
(** int(d) *)
Fixpoint decimal (acc : Z) (l : list nat) : res Z :=
  match l with
  | [] => Ok acc
  | c :: l' => match digit c with Some k => decimal (10 * acc + Z.of_nat k)%Z l' | None => Err Throw end
  end.
Definition to_int (l : list nat) : res Z :=
  match l with
  | [] => Err Throw
  | _ => match limit with Some k => if k <? length l then Err Throw else decimal 0 l | None => decimal 0 l end
  end.
(** lambda d, *x: (int(d), *x) of the words (app.py:443-446) *)
Definition read_line (l : list nat) : res (Z * list (list nat)) :=
  match split [] (strip (squash false l)) with
  | [] => Err Throw
  | d :: ws => let! k := to_int d in Ok (k, ws)
  end.

(** The string is a QASM circuit; a list of indices; or neither, in which case load_tn
    goes on with files and JSON. *)
Inductive kind := Qasm | Inds (l : list (Z * list (list nat))) | Other.

Definition read_text (s : list nat) : res kind :=
  let lines := splitlines [] s in
  match filter (fun x => negb (length x =? 0) && negb (starts_with slashes x)) lines with
  | [] => Err Throw                                                                 (* mit.first: 426-428 *)
  | x :: _ =>
      if starts_with openqasm (flat_map upper x) then Ok Qasm else                  (* 428-430 *)
      if existsb bad lines then Ok Other else                                       (* 433-438 *)
      let! l := mapM read_line (filter (matches entry_re) lines) in                 (* 440-449 *)
      Ok (Inds l)
  end.

(** The list is loaded (app.py:451, 471-486, up to the call that fuses). M_TnApp has
    naturals as names of tensors; [code] numbers the strings. None: not a list. *)
Definition load_text (K : Type) (code : list nat -> nat) (out sparse : list nat) (s : list nat) : res (option (list nat * tnet K)) :=
  let! k := read_text s in
  match k with
  | Inds l => let! r := load_inds K (map (fun e => (fst e, map code (snd e))) l) (code out) (code sparse) in Ok (Some r)
  | _ => Ok None
  end.
End Text.
