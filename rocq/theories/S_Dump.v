(** Specification vocabulary for files that hold results. *)
From Coq Require Import String. From Coq Require Import List ZArith Bool Arith.
Import ListNotations.
From Verif Require Import M_Json M_JsonTn S_Json M_Dump.
Set Implicit Arguments.
Local Open Scope string_scope. Local Open Scope list_scope. Local Open Scope Z_scope.

(** The call writes, or would write, the file f. *)
Definition names_file (L : lib) (c : call) (f : nat) : Prop := exists n, name c = Some n /\ file L n = f.

(** The arguments that the documentation allows, with the file system as it is. *)
Definition accepted (L : lib) (c : call) (fs : files) : Prop :=
  extra c = false /\
  (format c = None \/ exists f, format c = Some f /\ (lower L f = str "raw" \/ lower L f = str "json")) /\
  (forall n, name c = Some n -> n <> [] -> valid_path L n = true) /\
  (forall n, name c = Some n -> overwrite c = true \/ fs (file L n) = None) /\
  (lower L (compression c) = str "auto" \/ lower L (compression c) = str "none" \/
   lower L (compression c) = str "bz2" \/ lower L (compression c) = str "gzip").

(** output_format='json' *)
Definition json_wanted (L : lib) (c : call) : Prop := exists f, format c = Some f /\ lower L f = str "json".

(** A path [dir/stem.ext]; [dir] may be missing. *)
Definition path_with (dir stem ext n : text) : Prop :=
  n = dir ++ stem ++ str "." ++ ext /\ (dir = [] \/ exists d, dir = d ++ str "/") /\
  stem <> [] /\ ext <> [] /\ ~ In 47 stem /\ ~ In 47 ext /\ ~ In 46 ext.
(** Compression that is asked for by name or by the extension. *)
Definition asks_gzip (L : lib) (c : call) (n : text) : Prop :=
  lower L (compression c) = str "gzip" \/ lower L (compression c) = str "auto" /\ exists d s, path_with d s (str "gzip") n.
Definition asks_bz2 (L : lib) (c : call) (n : text) : Prop :=
  lower L (compression c) = str "bz2" \/ lower L (compression c) = str "auto" /\ exists d s, path_with d s (str "bz2") n.
Definition asks_none (L : lib) (c : call) (n : text) : Prop :=
  lower L (compression c) = str "none" \/
  lower L (compression c) = str "auto" /\ exists d s e, path_with d s e n /\ e <> str "gzip" /\ e <> str "bz2".

(** The output before compression: the text, or what pickle writes. *)
Definition output_bytes (L : lib) (c : call) (b : bytes) : Prop :=
  (json_wanted L c /\ exists t, as_json c = Some t /\ b = encoded c t) \/ (~ json_wanted L c /\ b = fst (pickled c)).
(** The bytes that the file should hold. *)
Definition file_bytes (L : lib) (c : call) (b : bytes) : Prop :=
  exists n o, name c = Some n /\ output_bytes L c o /\
    (asks_gzip L c n -> b = gzip c o) /\ (asks_bz2 L c n -> b = bz2 c o) /\ (asks_none L c n -> b = o) /\
    (b = o \/ b = gzip c o \/ b = bz2 c o).

(** The libraries: printable ASCII is encoded as itself, compressed data starts with its
    magic number and can be decompressed. *)
Definition ascii_ok (c : call) (decode : bytes -> option text) : Prop :=
  forall t, printable t -> encoded c t = t /\ decode t = Some t.
Definition codecs_ok (c : call) (gunzip bunzip : bytes -> option bytes) : Prop :=
  forall b, firstn 2 (gzip c b) = [31; 139] /\ gunzip (gzip c b) = Some b /\
            firstn 2 (bz2 c b) = str "BZ" /\ bunzip (bz2 c b) = Some b.

(** One call on its own that is never stopped: its state and the files after some steps. *)
Definition alone (L : lib) (c : call) (moves : list nat) (fs : files) : option state * files :=
  let r := run L [c] (map (fun k => (0%nat, Some k)) moves) fs in (nth_error (fst r) 0, snd r).

(** ** Looking into JSON values *)
Section Look.
Variable F : Type.
Local Notation value := (value F).
Fixpoint assoc (l : list (key F * value)) (k : text) : option value :=
  match l with
  | (KStr _ s, v) :: l' => if list_eq_dec Z.eq_dec s k then Some v else assoc l' k
  | _ :: l' => assoc l' k
  | [] => None
  end.
Definition field (v : value) (k : string) : option value := match v with VDict l => assoc l (str k) | _ => None end.
Definition elements (v : option value) : list value := match v with Some (VList l) => l | _ => [] end.

(** The JSON form of numbers in an array: complex numbers are strings. *)
Variable frepr : F -> text.
Fixpoint shows (e : entries F) (v : value) {struct e} : Prop :=
  match e with
  | EBool _ b => v = VBool F b
  | EInt _ z => v = VInt F z
  | EFloat x => v = VFloat x
  | EComplex re im => exists a b, v = VStr F (a ++ str " + " ++ b ++ str "j") /\
      (forall x, re = Fin x -> a = frepr x) /\ (forall x, im = Fin x -> b = frepr x)
  | EList l => exists w, v = VList w /\ length w = length l /\
      (fix all l w := match l, w with e :: l', v :: w' => shows e v /\ all l' w' | _, _ => True end) l w
  end.
Definition shows_tensor (t : tensor F) (v : value) : Prop :=
  field v "inds" = Some (VList (t_inds t)) /\
  field v "dims" = Some (VList (map (VInt F) (t_dims t))) /\
  match t_array t with None => field v "array" = Some (VNone F) | Some a => exists w, field v "array" = Some w /\ shows a w end /\
  field v "tags" = Some (VDict (t_tags t)).
Definition shows_path (p : list (list Z)) (v : value) : Prop := v = VList (map (fun x => VList (map (VInt F) x)) p).
Definition shows_results (r : results F) (v : value) : Prop :=
  field v "cost" = Some (VStr F (r_cost r)) /\ field v "runtime_s" = Some (VFloat (r_runtime r)) /\
  (exists w, field v "path" = Some w /\ shows_path (r_path r) w) /\
  Forall2 shows_path (r_paths r) (elements (field v "disconnected_paths")) /\
  match r_sliced r with
  | None => field v "slices" = None
  | Some (s, ds) => field v "slices" = Some (VList s) /\ field v "disconnected_slices" = Some (VList (map (@VList F) ds))
  end.
(** The value shows the network and all the results, in their order. *)
Definition shows_output (n : network F) (l : list (results F)) (v : value) : Prop :=
  (exists w, field v "tn" = Some w /\
     Forall2 shows_tensor (n_tensors n) (elements (field w "tensors")) /\
     field w "output_inds" = Some (VList (n_output n)) /\ field w "sparse_inds" = Some (VList (n_sparse n))) /\
  Forall2 shows_results l (elements (field v "res")).

(** What JSON can hold without change. *)
Definition plain_network (n : network F) : Prop :=
  Forall (fun t => Forall (plain (F := F)) (t_inds t) /\ plain (VDict (t_tags t))) (n_tensors n) /\
  Forall (plain (F := F)) (n_output n) /\ Forall (plain (F := F)) (n_sparse n).
Definition plain_results (r : results F) : Prop :=
  printable (r_cost r) /\
  match r_sliced r with None => True | Some (s, ds) => Forall (plain (F := F)) s /\ Forall (Forall (plain (F := F))) ds end.
End Look.
