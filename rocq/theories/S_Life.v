(** Specification vocabulary for the life of an optimizer. *)
From Coq Require Import String.
From Verif Require Import M_Base M_LoadTn M_App M_Json M_JsonTn M_Dump S_Dump M_Seed M_Life.
Set Implicit Arguments.

(** One of these names, whatever the case. *)
Definition known (L : lib) (l : list string) (s : text) : Prop := exists x, In x l /\ lower L s = str x.

(** output_format='json' *)
Definition wants_json (L : lib) (u : options) : Prop := exists f, u_format u = Some f /\ lower L f = str "json".

(** The same optimizer that hands its results to the caller, and runs in one process:
    output_format=None, output_filename=None, n_jobs=1. *)
Definition in_hand (u : options) : options :=
  mk_options (u_method u) (u_max u) 1 (u_width_type u) (u_cost_type u) None None (str "auto") false (u_seed u).

(** The options for the output are as documented, with the files as they are. *)
Definition output_ok (L : lib) (u : options) (fs : files) : Prop :=
  (u_format u = None \/ wants_json L u \/ exists f, u_format u = Some f /\ lower L f = str "raw") /\
  (forall n, u_name u = Some n -> n <> [] -> valid_path L n = true) /\
  (forall n, u_name u = Some n -> u_overwrite u = true \/ fs (file L n) = None) /\
  known L ["auto"; "none"; "bz2"; "gzip"]%string (u_compression u).
(** The call of dump_results that writes the result y as asked for. *)
Definition request {Y} (W : writers Y) (u : options) (y : Y) : M_Dump.call := {|
  extra := false; format := u_format u; name := u_name u; compression := u_compression u; overwrite := u_overwrite u; check_only := false;
  as_json := to_text W y; pickled := to_pickle W y; gzip := w_gzip W; bz2 := w_bz2 W; encoded := w_encode W |}.

(** Every result can be turned into text, or be pickled. *)
Definition can_write {Y} (L : lib) (W : writers Y) (u : options) : Prop :=
  forall y, (wants_json L u -> to_text W y <> None) /\ (~ wants_json L u -> snd (to_pickle W y) = true).

(** Nobody else touches the file of the optimizer. *)
Definition undisturbed {R B K} (L : lib) (u : options) (evs : list (event R B K)) : Prop :=
  forall e n fs, In e evs -> u_name u = Some n -> ev_others e fs (file L n) = fs (file L n).

(** The user has the result y: the pair, the text, or the file that holds it. *)
Definition has_result {Y} (L : lib) (W : writers Y) (u : options) (y : Y) (s : seen Y) (fs : files) : Prop :=
  match u_name u with
  | Some n => s = SNone /\ exists b, file_bytes L (request W u y) b /\ fs (file L n) = Some b
  | None => (~ wants_json L u -> s = SPair y) /\ (wants_json L u -> exists t, to_text W y = Some t /\ s = SText t)
  end.

(** What a call that gave r is seen as, if the results are handed to the caller. *)
Definition handed {Y} (r : res Y) : seen Y := match r with Ok y => SPair y | Err _ => SRaise end.

(** The names of the types. *)
Definition known_cost_type (L : lib) : text -> Prop := known L ["float32"; "float64"; "float128"; "float1024"]%string.
Definition known_width_type (L : lib) : text -> Prop := known L ["float32"; "float64"; "float128"]%string.

(** A type that is not known, a negative bound, or n_jobs=0 (if joblib can be imported). *)
Definition refused (L : lib) (joblib : bool) (u : options) : Prop :=
  ~ known_cost_type L (u_cost_type u) \/
  (exists w, u_max u = Some (Fin w) /\ (w < 0)%Z) \/ u_max u = Some NegInf \/
  ((u_max u = Some NegInf \/ exists w, u_max u = Some (Fin w)) /\ ~ known_width_type L (u_width_type u)) \/
  (u_jobs u = 0%Z /\ joblib = true).
