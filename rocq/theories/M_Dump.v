(** Model of dump_results and load_file on files (tnco/app/app.py:90-145, 567-702).
    A file is known by a number, [file name] (so that two names may be the same file), and
    holds bytes or does not exist. A call of dump_results is a process in small steps; the
    bytes reach the file in pieces of any size, each at the position of its own process.
    At any step the process may stop: an error of the system, or a crash. *)
From Coq Require Import String. From Coq Require Import List ZArith Bool Arith.
Import ListNotations.
From Verif Require Import M_Json M_JsonTn.
Set Implicit Arguments.
Local Open Scope string_scope. Local Open Scope list_scope. Local Open Scope Z_scope.

Definition bytes := list Z.
Definition files := nat -> option bytes.

(** What the interpreter and its libraries compute: str.lower, validate_filepath,
    the file of a path. *)
Record lib := mk_lib { lower : text -> text; valid_path : text -> bool; file : text -> nat }.

(** ** Path(name).suffix (pathlib: the parts that are empty or '.' are dropped) *)
Fixpoint parts (s acc : text) : list text :=
  match s with
  | [] => [rev acc]
  | c :: s' => if c =? 47 then rev acc :: parts s' [] else parts s' (c :: acc)
  end.
Definition last_part (s : text) : text :=
  last (filter (fun p => negb (teqb p []) && negb (teqb p (str "."))) (parts s [])) [].
(** name[i:] with i = name.rfind('.') if 0 < i < len(name) - 1, else ''; [suffix] is
    suffix[1:]. [after_dot seen s]: what follows the last dot of s, and whether anything
    stands before that dot. *)
Fixpoint after_dot (start : bool) (s : text) : option (bool * text) :=
  match s with
  | [] => None
  | c :: s' =>
      match after_dot false s' with
      | Some x => Some x
      | None => if c =? 46 then Some (negb start, s') else None
      end
  end.
Definition suffix (s : text) : text :=
  match after_dot true (last_part s) with Some (true, r) => r | _ => [] end.

(** ** The arguments of a call *)
Record call := mk_call {
  extra : bool;                       (* unexpected keyword arguments *)
  format : option text;               (* output_format *)
  name : option text;                 (* output_filename *)
  compression : text;                 (* str(output_compression) *)
  overwrite : bool;                   (* overwrite_output_file *)
  check_only : bool;
  as_json : option text;              (* the text of the output; None if to_json raises *)
  pickled : bytes * bool;             (* what pickle.dump writes, and whether it comes to its end *)
  gzip : bytes -> bytes; bz2 : bytes -> bytes;   (* gzip.open and bz2.open: what they write *)
  encoded : text -> bytes }.          (* str.encode and the text mode of open *)

Inductive error := TypeErr | ValueErr | ExistsErr | OtherErr.
(** None, the tuple (tn, res), the text, or an exception. *)
Inductive outcome := RetNone | RetPair | RetText (s : text) | Raise (e : error).

Inductive codec := Plain | Gz | Bz.
Definition one_of (s : text) (l : list text) : bool := existsb (teqb s) l.
Definition is_json (L : lib) (c : call) : bool :=
  match format c with None => false | Some f => teqb (lower L f) (str "json") end.

(** app.py:622-658; the existence of the file is read at this moment. *)
Definition check (L : lib) (c : call) (fs : files) : option error :=
  if extra c then Some TypeErr
  else if negb (match format c with None => true | Some f => one_of (lower L f) [str "raw"; str "json"] end) then Some ValueErr
  else if match name c with Some ((_ :: _) as n) => negb (valid_path L n) | _ => false end then Some ValueErr
  else if match name c with Some n => negb (overwrite c) && match fs (file L n) with Some _ => true | None => false end | None => false end then Some ExistsErr
  else if negb (one_of (lower L (compression c)) [str "auto"; str "none"; str "bz2"; str "gzip"]) then Some ValueErr
  else None.

(** app.py:671-681 *)
Definition codec_of (L : lib) (c : call) (n : text) : codec :=
  let s := if teqb (lower L (compression c)) (str "auto") then suffix n else lower L (compression c) in
  if teqb s (str "gzip") then Gz else if teqb s (str "bz2") then Bz else Plain.
Definition apply_codec (c : call) (k : codec) (b : bytes) : bytes :=
  match k with Plain => b | Gz => gzip c b | Bz => bz2 c b end.

(** ** Steps of a call *)
Inductive state :=
| Begin
| Passed                                                (* the checks are done *)
| Ready (f : nat) (data : bytes) (whole : bool)         (* before open *)
| Writing (f : nat) (pos : nat) (data : bytes) (whole : bool)   (* data still to be written at pos *)
| Ended (o : outcome).

(** write at a position; a gap is filled with zeros *)
Definition write_at (old : bytes) (pos : nat) (d : bytes) : bytes :=
  firstn pos (old ++ repeat 0 (pos - length old)) ++ d ++ skipn (pos + length d) old.
Definition set_file (fs : files) (f : nat) (b : bytes) : files := fun g => if Nat.eqb g f then Some b else fs g.

(** [go]: [None] if the process stops here, [Some k] if it goes on, and writes k + 1 bytes
    or what is left. *)
Definition step (L : lib) (c : call) (go : option nat) (st : state) (fs : files) : state * files :=
  match go with
  | None => match st with Ended o => (Ended o, fs) | _ => (Ended (Raise OtherErr), fs) end
  | Some k =>
      match st with
      | Begin =>
          match check L c fs with
          | Some e => (Ended (Raise e), fs)
          | None => if check_only c then (Ended RetNone, fs) else (Passed, fs)   (* app.py:657-658 *)
          end
      | Passed =>                                                          (* app.py:660-702 *)
          if is_json L c then
            match as_json c with
            | None => (Ended (Raise OtherErr), fs)
            | Some t =>
                match name c with
                | None => (Ended (RetText t), fs)
                | Some n => (Ready (file L n) (apply_codec c (codec_of L c n) (encoded c t)) true, fs)
                end
            end
          else
            match name c with
            | None => (Ended RetPair, fs)
            | Some n => (Ready (file L n) (apply_codec c (codec_of L c n) (fst (pickled c))) (snd (pickled c)), fs)
            end
      | Ready f d w => (Writing f 0 d w, set_file fs f [])                 (* open, mode 'w' or 'bw' *)
      | Writing f pos d w =>
          match d with
          | [] => (Ended (if w then RetNone else Raise OtherErr), fs)      (* close *)
          | _ =>
              let old := match fs f with Some b => b | None => [] end in
              (Writing f (pos + length (firstn (S k) d)) (skipn (S k) d) w, set_file fs f (write_at old pos (firstn (S k) d)))
          end
      | Ended o => (Ended o, fs)
      end
  end.

(** Several calls at the same time: at each moment one of them makes a step. *)
Fixpoint update (A : Type) (l : list A) (i : nat) (x : A) : list A :=
  match l, i with
  | [], _ => []
  | _ :: l', O => x :: l'
  | a :: l', S i' => a :: update l' i' x
  end.
Definition system_step (L : lib) (cs : list call) (m : nat * option nat) (s : list state * files) : list state * files :=
  let (sts, fs) := s in
  match nth_error cs (fst m), nth_error sts (fst m) with
  | Some c, Some st => let (st', fs') := step L c (snd m) st fs in (update sts (fst m) st', fs')
  | _, _ => (sts, fs)
  end.
Definition run (L : lib) (cs : list call) (sched : list (nat * option nat)) (fs : files) : list state * files :=
  fold_left (fun s m => system_step L cs m s) sched (map (fun _ => Begin) cs, fs).

(** ** load_file (app.py:90-145) *)
Inductive loaded (V : Type) := LJson (v : V) | LText (s : text) | LRaise.
Arguments LJson {V} v. Arguments LText {V} s. Arguments LRaise {V}.
Section Load.
Variable V : Type.
Variable gunzip bunzip : bytes -> option bytes.   (* gzip.decompress, bz2.decompress; None: they raise *)
Variable decode : bytes -> option text.           (* bytes.decode; None: UnicodeDecodeError *)
Variable json : text -> option V.                 (* json.loads; None: JSONDecodeError *)
(** The UnicodeDecodeError of line 130 is not caught, so that lines 137-142 never run. *)
Fixpoint load_bytes (fuel : nat) (b : bytes) : loaded V :=
  match fuel with
  | O => LRaise                                   (* RecursionError *)
  | S k =>
      if teqb (firstn 2 b) [31; 139] then match gunzip b with Some b' => load_bytes k b' | None => LRaise end
      else if teqb (firstn 2 b) (str "BZ") then match bunzip b with Some b' => load_bytes k b' | None => LRaise end
      else match decode b with
           | None => LRaise
           | Some t => match json t with Some v => LJson v | None => LText t end
           end
  end.
Definition load_file (L : lib) (fuel : nat) (n : text) (fs : files) : loaded V :=
  if valid_path L n then match fs (file L n) with Some b => load_bytes fuel b | None => LRaise end else LRaise.
End Load.
