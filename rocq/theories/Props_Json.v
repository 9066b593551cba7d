(** C52: the JSON output can be read back. *)
From Coq Require Import String. From Coq Require Import List ZArith Bool Arith Lia.
Import ListNotations.
From Verif Require Import M_Json M_JsonTn S_Json M_Dump S_Dump P_Json P_JsonTn.
Set Implicit Arguments.
Unset Strict Implicit.
Local Open Scope string_scope. Local Open Scope list_scope. Local Open Scope Z_scope.

(** A small type of floats for the examples: whole numbers, written 12.0. *)
Definition xrepr (z : Z) : text := int_repr z ++ str ".0".
Definition xread (t : text) : Z := match read_integer t with Some (i, _) => int_value i | None => 0 end.
Lemma xfloat_ok : float_ok xrepr xread.
Proof.
  intros z. unfold xrepr, xread. destruct (int_repr_parts z) as (sign & i & E & Hs & Hi & Hv). rewrite E. split.
  - rewrite <- app_assoc. change (str ".0") with ([46; 48] ++ @nil Z). apply float_text_; [exact Hs|exact Hi| |left; reflexivity|discriminate].
    right. exists [48]. split; [reflexivity|]. split; [discriminate|]. constructor; [unfold digit; lia|constructor].
  - rewrite <- app_assoc, (@read_integer_ok sign i (str ".0") Hs Hi eq_refl). exact Hv.
Qed.

(** json.loads(json.dumps(v)) gives v, for every v that is made of None, booleans, ints,
    floats, strings without pairs of surrogates, lists, and dicts with different strings
    as keys. *)
Theorem C52_round_trip (F : Type) (frepr : F -> text) (fread : text -> F) (v : value F) :
  float_ok frepr fread -> plain v -> loads fread (dumps frepr v) = Some v.
Proof. intros HF Hv. exact (round_trip HF Hv). Qed.
Print Assumptions C52_round_trip.

(** Different values have different texts. *)
Theorem C52_different_texts (F : Type) (frepr : F -> text) (fread : text -> F) (v w : value F) :
  float_ok frepr fread -> plain v -> plain w -> dumps frepr v = dumps frepr w -> v = w.
Proof.
  intros HF Hv Hw E. pose proof (round_trip HF Hv) as A. rewrite E, (round_trip HF Hw) in A. injection A as A. symmetry. exact A.
Qed.
Print Assumptions C52_different_texts.

(** Every value that can be written can be read, a string comes back with its pairs of
    surrogates joined, and the text is printable ASCII. *)
Theorem C52_always_readable (F : Type) (frepr : F -> text) (fread : text -> F) (v : value F) :
  float_ok frepr fread -> well_coded v ->
  printable (dumps frepr v) /\ (exists w, loads fread (dumps frepr v) = Some w) /\
  (forall s, v = VStr F s -> loads fread (dumps frepr v) = Some (VStr F (merge s))).
Proof.
  intros HF Hv. split; [exact (dumps_printable HF Hv)|]. split; [eexists; exact (loads_norm HF Hv)|]. intros s ->. exact (loads_norm HF Hv).
Qed.
Print Assumptions C52_always_readable.

(** The text that dump_results makes is one JSON object that holds the whole network and
    all the results: indices, dimensions, arrays, tags, output and sparse indices, costs,
    runtimes, paths and slices. *)
Theorem C52_output (F : Type) (frepr : F -> text) (fread : text -> F) (n : network F) (res : list (results F)) :
  float_ok frepr fread -> plain_network n -> Forall (@plain_results F) res ->
  printable (json_output frepr n res) /\
  exists v, loads fread (json_output frepr n res) = Some v /\ shows_output frepr n res v.
Proof.
  intros HF Hn Hr. split.
  - apply (json_output_printable HF); [apply (norm_plain frepr (plain_net HF Hn))|]. eapply Forall_impl; [|exact Hr]. intros r Hr'. apply (norm_plain frepr (plain_res Hr')).
  - exists (output_value frepr n res). split; [exact (loads_plain_output HF Hn Hr)|apply shows_output_value].
Qed.
Print Assumptions C52_output.

(** Not every value survives: keys that are numbers become strings, and may meet others. *)
Theorem C52_keys_refuted : exists (v : value Z) w,
  well_coded v /\ loads xread (dumps xrepr v) = Some w /\ w <> v /\
  match v, w with VDict l, VDict l' => length l = 2%nat /\ length l' = 1%nat | _, _ => False end.
Proof.
  exists (VDict [(KInt Z 1, VInt Z 10); (KStr Z (str "1"), VInt Z 20)]), (VDict [(KStr Z (str "1"), VInt Z 20)]).
  split; [|split; [vm_compute; reflexivity|split; [discriminate|split; reflexivity]]].
  constructor. repeat apply Forall_cons; [| |constructor]; (split; [|constructor]).
  - discriminate.
  - intros s E. injection E as <-. apply str_code.
Qed.
Print Assumptions C52_keys_refuted.

(** A string with a high and a low surrogate next to each other comes back as another one. *)
Theorem C52_surrogates_refuted : exists s, code_points s /\ loads xread (dumps xrepr (VStr Z s)) <> Some (VStr Z s).
Proof. exists [55357; 56832]. split; [repeat (constructor; [lia|]); constructor|]. vm_compute. discriminate. Qed.
Print Assumptions C52_surrogates_refuted.

(** ** Non-trivial cases *)
Definition x_value : value Z :=
  VDict [(KStr Z (str "a""b\"), VList [VNone Z; VBool Z true; VInt Z (-120); VFloat (Fin 7); VFloat (NInf Z); VFloat (NaN Z)]);
         (KStr Z [233; 128512; 10; 55296], VDict []); (KStr Z [], VList [])].
Example C52_applies : float_ok xrepr xread /\ plain x_value /\ loads xread (dumps xrepr x_value) = Some x_value.
Proof.
  split; [exact xfloat_ok|]. assert (H : plain x_value).
  { constructor.
    - repeat (constructor; [intros H; repeat (destruct H as [H|H]; [discriminate H|]); exact H|]). constructor.
    - repeat apply Forall_cons; [| | |constructor].
      + split; [exists (str "a""b\"); split; [reflexivity|]; split; [apply str_code|apply str_no_pair]|]. constructor. repeat (constructor; [constructor|]). constructor.
      + split; [exists [233; 128512; 10; 55296]; split; [reflexivity|]; split; [repeat (constructor; [lia|]); constructor|reflexivity]|]. constructor; constructor.
      + split; [exists []; split; [reflexivity|]; split; [constructor|reflexivity]|]. constructor. constructor. }
  split; [exact H|]. exact (C52_round_trip xfloat_ok H).
Qed.

Definition x_net : network Z :=
  mk_network [mk_tensor [VStr Z (str "i"); VInt Z 3] [2; 2] (Some (EList [EList [EFloat (Fin 1); EFloat (Fin 0)]; EList [EFloat (Fin 0); EComplex (Fin 0) (Fin (-1))]])) [(KStr Z (str "name"), VStr Z (str "t0"))];
              mk_tensor [VInt Z 3] [2] None []] [VStr Z (str "i")] [].
Definition x_results : list (results Z) :=
  [mk_results (str "8") (Fin 12) [[0; 1]] [[[0; 1]]] (Some ([VInt Z 3], [[VInt Z 3]])); mk_results (str "16") (Fin 3) [[1; 0]] [[[1; 0]]] None].
Lemma x_plain : plain_network x_net /\ Forall (@plain_results Z) x_results.
Proof.
  assert (S : forall s, plain (VStr Z (str s))) by (intros s; constructor; [apply str_code|apply str_no_pair]). split.
  - split; [|split; [constructor; [apply S|constructor]|constructor]]. constructor; [|constructor; [|constructor]].
    + split; [constructor; [apply S|constructor; [constructor|constructor]]|]. cbn [t_tags]. constructor; [constructor; [intros []|constructor]|]. constructor; [|constructor].
      split; [exists (str "name"); split; [reflexivity|]; split; [apply str_code|apply str_no_pair]|apply S].
    + split; [constructor; [constructor|constructor]|]. cbn [t_tags]. constructor; constructor.
  - constructor; [|constructor; [|constructor]]; (split; [vm_compute; repeat (constructor; [split; intros E; discriminate E|]); constructor|]); cbn [r_sliced]; [|exact I].
    split; [constructor; [constructor|constructor]|]. constructor; [|constructor]. constructor; [constructor|constructor].
Qed.
Example C52_output_applies : exists v, loads xread (json_output xrepr x_net x_results) = Some v /\ shows_output xrepr x_net x_results v /\
  match field v "res" with Some (VList [r; _]) => field r "cost" = Some (VStr Z (str "8")) | _ => False end.
Proof.
  destruct (C52_output xfloat_ok (proj1 x_plain) (proj2 x_plain)) as (_ & v & E & H). exists v. split; [exact E|]. split; [exact H|].
  assert (E' : loads xread (json_output xrepr x_net x_results) = Some (output_value xrepr x_net x_results)) by (vm_compute; reflexivity).
  rewrite E in E'. injection E' as ->. vm_compute. reflexivity.
Qed.
