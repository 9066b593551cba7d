(** The JSON form of networks and results. *)
From Coq Require Import String. From Coq Require Import List ZArith Bool Arith Lia FinFun.
Import ListNotations.
From Verif Require Import M_Json M_JsonTn S_Json M_Dump S_Dump P_Json.
Set Implicit Arguments.
Unset Strict Implicit.
Local Open Scope string_scope. Local Open Scope list_scope. Local Open Scope Z_scope.

Section JsonTn.
Variable F : Type.
Variable frepr : F -> text.
Variable fread : text -> F.
Hypothesis HF : float_ok frepr fread.
Local Notation value := (value F).
Local Notation dumps := (dumps frepr).

(** ** What is written is printable ASCII *)
Ltac lits := repeat (constructor; [lia|]); constructor.
Lemma digit_printable l : Forall digit l -> printable l.
Proof. apply Forall_impl. unfold digit. lia. Qed.
Lemma integer_printable i : integer_text i -> printable i.
Proof. intros [->|(c & d & -> & Hc & Hd)]; [lits|]. constructor; [lia|apply digit_printable; exact Hd]. Qed.
Lemma sign_printable s : s = [] \/ s = [45] -> printable s.
Proof. intros [->| ->]; lits. Qed.
Lemma int_printable z : printable (int_repr z).
Proof. destruct (int_repr_parts z) as (s & i & -> & Hs & Hi & _). apply Forall_app. split; [apply sign_printable; exact Hs|apply integer_printable; exact Hi]. Qed.
Lemma float_text_printable t : float_text t -> printable t.
Proof.
  intros H. destruct H as [sign i f e Hs Hi Hf He _]. apply Forall_app. split; [apply sign_printable; exact Hs|]. apply Forall_app. split; [apply integer_printable; exact Hi|]. apply Forall_app. split.
  - destruct Hf as [->|(d & -> & _ & Hd)]; [constructor|]. constructor; [lia|apply digit_printable; exact Hd].
  - destruct He as [->|(c & s & d & -> & Hc & Hs' & _ & Hd)]; [constructor|]. constructor; [lia|]. apply Forall_app. split; [|apply digit_printable; exact Hd].
    destruct Hs' as [->|[->| ->]]; lits.
Qed.
Lemma float_printable x : printable (float_repr frepr x).
Proof. destruct x as [x| | |]; [apply float_text_printable, HF|lits|lits|lits]. Qed.
Lemma hex_printable d : 0 <= d < 16 -> 32 <= hex_digit d <= 126.
Proof. intros H. unfold hex_digit. destruct (d <? 10); lia. Qed.
Lemma u_printable n : 0 <= n < 65536 -> printable (u_escape n).
Proof.
  intros H. unfold u_escape, hex4, backslash. repeat apply Forall_cons; [lia|lia| | | | |constructor]; apply hex_printable; try (apply Z.mod_pos_bound; lia).
  split; [apply Z.div_pos; lia|apply Z.div_lt_upper_bound; lia].
Qed.
Lemma escape_printable c : 0 <= c < 1114112 -> printable (escape c).
Proof.
  intros H. unfold escape. repeat match goal with |- context[if ?b then _ else _] => destruct b eqn:? end; try solve [unfold backslash, quote; lits].
  - apply u_printable. rewrite Z.ltb_lt in *. lia.
  - rewrite Z.ltb_ge in *. apply Forall_app.
    assert (Hd : 0 <= (c - 65536) / 1024 < 1024) by (split; [apply Z.div_pos; lia|apply Z.div_lt_upper_bound; lia]).
    assert (Hm : 0 <= (c - 65536) mod 1024 < 1024) by (apply Z.mod_pos_bound; lia). split; apply u_printable; lia.
Qed.
Lemma str_printable s : code_points s -> printable (str_repr s).
Proof.
  intros H. constructor; [unfold quote; lia|]. apply Forall_app. split; [|unfold quote; lits].
  induction H as [|c s Hc H IH]; [constructor|]. apply Forall_app. split; [apply escape_printable; exact Hc|exact IH].
Qed.
Lemma joined_printable (A : Type) (f : A -> text) l : Forall (fun x => printable (f x)) l -> printable (joined (map f l)).
Proof.
  induction l as [|y l IH]; intros H; [constructor|]. inversion H; subst. destruct l as [|z l]; [assumption|].
  change (joined (map f (y :: z :: l))) with (f y ++ 44 :: 32 :: joined (map f (z :: l))). apply Forall_app. split; [assumption|]. constructor; [lia|]. constructor; [lia|]. apply IH. assumption.
Qed.
Lemma dumps_printable v : well_coded v -> printable (dumps v).
Proof.
  induction v as [|b|z|x|s|l IH|l IH] using val_ind; intros Hw.
  - lits.
  - destruct b; lits.
  - apply int_printable.
  - apply float_printable.
  - inversion Hw; subst. apply str_printable. assumption.
  - inversion Hw as [| | | | |l' Hl|]; subst. cbn [M_Json.dumps]. constructor; [lia|]. apply Forall_app. split; [|lits]. apply joined_printable.
    rewrite Forall_forall in *. intros v Hv. apply IH; auto.
  - inversion Hw as [| | | | | |l' Hl]; subst. cbn [M_Json.dumps]. constructor; [lia|]. apply Forall_app. split; [|lits]. apply joined_printable.
    rewrite Forall_forall in *. intros v Hv. destruct (Hl v Hv) as (Hk & Hv'). apply Forall_app. split; [apply str_printable; apply (key_code HF); exact Hk|].
    constructor; [lia|]. constructor; [lia|]. apply IH; auto.
Qed.

Lemma str_code s : code_points (str s).
Proof.
  unfold str, code_points. apply Forall_map. apply Forall_forall. intros a _. pose proof (Ascii.nat_ascii_bounded a). lia.
Qed.
Lemma str_no_pair s : split_pair (str s) = false.
Proof.
  unfold str. induction (list_ascii_of_string s) as [|a l IH]; [reflexivity|]. cbn [map]. destruct l as [|b l]; [reflexivity|]. cbn [map] in *. cbn [split_pair] in *.
  rewrite IH, orb_false_r. pose proof (Ascii.nat_ascii_bounded a). destruct (Z.leb_spec 55296 (Z.of_nat (Ascii.nat_of_ascii a))); [lia|reflexivity].
Qed.

(** ** The whole output *)
Definition output_value (n : network F) (l : list (results F)) : value :=
  VDict [(KStr F (str "tn"), enc_network frepr n); (KStr F (str "res"), VList (map (@enc_results F) l))].

Lemma json_output_eq n l : json_output frepr n l =
  123 :: str_repr (str "tn") ++ 32 :: 58 :: 32 :: dumps (enc_network frepr n) ++ 44 :: 32 :: str_repr (str "res") ++ 32 :: 58 :: 32 :: dumps (VList (map (@enc_results F) l)) ++ [125].
Proof. unfold json_output. change (dumps (VList (map (@enc_results F) l))) with ([91] ++ joined (map dumps (map (@enc_results F) l)) ++ [93]). rewrite map_map. rewrite <- !app_assoc. reflexivity. Qed.

Lemma loads_output n l : well_coded (enc_network frepr n) -> Forall (fun r => well_coded (enc_results r)) l ->
  loads fread (json_output frepr n l) = Some (VDict [(KStr F (str "tn"), norm frepr (enc_network frepr n)); (KStr F (str "res"), VList (map (norm frepr) (map (@enc_results F) l)))]).
Proof.
  intros Hn Hl. set (N := enc_network frepr n) in *. assert (Hr : well_coded (VList (map (@enc_results F) l))) by (constructor; rewrite Forall_map; exact Hl).
  set (R := VList (map (@enc_results F) l)) in *.
  assert (LN : (length (dumps N) <= length (json_output frepr n l))%nat /\ (length (dumps R) <= length (json_output frepr n l))%nat).
  { rewrite json_output_eq. fold N R. cbn [length]. rewrite !app_length. cbn [length]. rewrite !app_length. cbn [length]. rewrite !app_length. cbn [length]. rewrite !app_length. lia. }
  destruct LN as (LN & LR). set (m := length (json_output frepr n l)) in *.
  unfold loads. rewrite json_output_eq at 1. cbn [skip]. change (123 =? 65279) with false. cbv iota.
  replace (skip (json_output frepr n l)) with (json_output frepr n l) by (rewrite json_output_eq; reflexivity).
  fold m.
  assert (E : scan_once fread (S m) (json_output frepr n l) = Some (VDict [(KStr F (str "tn"), norm frepr N); (KStr F (str "res"), norm frepr R)], [])).
  { destruct m as [|m'] eqn:Em; [unfold m in Em; rewrite json_output_eq in Em; discriminate|].
    pose proof (@scan_dumps F frepr fread HF N Hn m') as SN. pose proof (@scan_dumps F frepr fread HF R Hr m') as SR.
    assert (LN' : (length (dumps N) <= m')%nat /\ (length (dumps R) <= m')%nat).
    { unfold m in Em. rewrite json_output_eq in Em. fold N R in Em. cbn [length] in Em. rewrite !app_length in Em. cbn [length] in Em. rewrite !app_length in Em. cbn [length] in Em. rewrite !app_length in Em. cbn [length] in Em. rewrite !app_length in Em. lia. }
    specialize (SN (proj1 LN')). specialize (SR (proj2 LN')).
    clear Em. clearbody m. rewrite json_output_eq. fold N R.
    cbn [M_Json.scan_once]. change (123 =? quote) with false. change (123 =? 123) with true. cbv iota.
    match goal with |- context[members _ ?g _] => set (g0 := g) end.
    assert (Hg : (2 <= g0)%nat). { unfold g0. unfold str_repr. cbn [length app]. lia. }
    destruct g0 as [|[|g1]]; [lia|lia|].
    set (T1 := 32 :: 58 :: 32 :: dumps N ++ 44 :: 32 :: str_repr (str "res") ++ 32 :: 58 :: 32 :: dumps R ++ [125]).
    rewrite (str_repr_cons (str "tn") T1). cbn [skip]. change (space quote) with false. cbv iota. change (quote =? 125) with false. cbv iota.
    set (T2 := 32 :: 58 :: 32 :: dumps R ++ [125]).
    assert (step : forall k (v : value) r g (Hk : code_points (str k)) (Hv : reads frepr (scan_once fread (S m')) v) (Hr' : ends r),
       members (scan_once fread (S m')) (S g) (str_repr (str k) ++ 32 :: 58 :: 32 :: dumps v ++ r) = match skip r with
        | c :: r'' => if c =? 125 then Some ([(merge (str k), norm frepr v)], r'')
                      else if c =? 44 then match members (scan_once fread (S m')) g (skip r'') with Some (l, r3) => Some ((merge (str k), norm frepr v) :: l, r3) | None => None end else None
        | [] => None end).
    { intros k v r g Hk Hv Hr'. rewrite str_repr_cons. cbn [members]. change (quote =? quote) with true. cbv iota. rewrite <- str_repr_cons. rewrite (str_scan _ Hk). cbn [skip].
      change (space 32) with true. change (space 58) with false. cbv iota. change (58 =? 58) with true. cbv iota. cbn [skip]. change (space 32) with true. cbv iota.
      rewrite (dumps_skip HF), (Hv r Hr'). reflexivity. }
    rewrite <- (str_repr_cons (str "tn") T1). unfold T1. rewrite step; [|apply str_code|exact SN|apply ends_comma].
    cbn [skip]. change (space 44) with false. cbv iota. change (44 =? 125) with false. change (44 =? 44) with true. cbv iota. cbn [skip]. change (space 32) with true. cbv iota.
    assert (Ek : skip (str_repr (str "res") ++ T2) = str_repr (str "res") ++ T2) by reflexivity. unfold T2 in Ek. rewrite Ek.
    rewrite step; [|apply str_code|exact SR|apply ends_brace]. reflexivity. }
  rewrite E. reflexivity.
Qed.

(** ** Networks and results are plain *)
Lemma entries_ind (P : entries F -> Prop) (H1 : forall b, P (EBool F b)) (H2 : forall z, P (EInt F z)) (H3 : forall x, P (EFloat x)) (H4 : forall a b, P (EComplex a b))
  (H5 : forall l, Forall P l -> P (EList l)) : forall e, P e.
Proof. fix IH 1. intros [b|z|x|a b|l]; [apply H1|apply H2|apply H3|apply H4|]. apply H5. induction l as [|v l IHl]; constructor; [apply IH|exact IHl]. Qed.

Lemma printable_plain s : printable s -> code_points s /\ split_pair s = false.
Proof.
  intros H. split; [eapply Forall_impl; [|exact H]; simpl; lia|]. induction H as [|a l Ha Hl IH]; [reflexivity|]. destruct l as [|b l]; [reflexivity|].
  cbn [split_pair] in *. rewrite IH, orb_false_r. destruct (Z.leb_spec 55296 a); [lia|reflexivity].
Qed.
Lemma plain_text s : printable s -> plain (VStr F s).
Proof. intros H. destruct (printable_plain H). constructor; assumption. Qed.
Lemma float_str_printable x : printable (float_str frepr x).
Proof. destruct x as [x| | |]; [apply float_text_printable, HF| | |]; vm_compute; repeat (constructor; [split; intros E; discriminate E|]); constructor. Qed.
Ltac lit := vm_compute; repeat (constructor; [split; intros E; discriminate E|]); constructor.
Lemma complex_printable a b : printable (complex_text frepr a b).
Proof.
  unfold complex_text. apply Forall_app. split; [apply float_str_printable|]. apply Forall_app. split; [lit|]. apply Forall_app. split; [apply float_str_printable|lit].
Qed.
Lemma plain_entries e : plain (enc_entries frepr e).
Proof.
  induction e as [b|z|x|a b|l IH] using entries_ind; cbn [enc_entries]; [constructor|constructor|constructor|apply plain_text, complex_printable|].
  constructor. rewrite Forall_map. exact IH.
Qed.
Lemma plain_ints l : plain (ints F l).
Proof. constructor. rewrite Forall_map. apply Forall_forall. intros z _. constructor. Qed.
Lemma plain_dict l : NoDup (map (fun kv => str (fst kv)) l) -> Forall (fun kv => plain (snd kv)) l -> plain (@dict F l).
Proof.
  intros Hn H. unfold dict. constructor.
  - rewrite map_map. cbn [fst]. rewrite <- (map_map (fun kv => str (fst kv)) (KStr F)). apply FinFun.Injective_map_NoDup; [|exact Hn]. intros a b E. injection E as E. exact E.
  - rewrite Forall_map. eapply Forall_impl; [|exact H]. intros (k, v) Hv. split; [|exact Hv]. exists (str k). split; [reflexivity|]. split; [apply str_code|apply str_no_pair].
Qed.
Ltac nodup := vm_compute; repeat (constructor; [intros E; repeat (destruct E as [E|E]; [discriminate E|]); exact E|]); constructor.
Lemma plain_tensor t : Forall (plain (F := F)) (t_inds t) -> plain (VDict (t_tags t)) -> plain (enc_tensor frepr t).
Proof.
  intros Hi Ht. apply plain_dict; [cbn [map fst]; nodup|]. repeat apply Forall_cons; cbn [snd]; [constructor; exact Hi|apply plain_ints| |exact Ht|constructor].
  destruct (t_array t); [apply plain_entries|constructor].
Qed.
Lemma plain_net (n : network F) : plain_network n -> plain (enc_network frepr n).
Proof.
  intros (Ht & Ho & Hs). apply plain_dict; [cbn [map fst]; nodup|]. repeat apply Forall_cons; cbn [snd]; [|constructor; assumption|constructor; assumption|constructor].
  constructor. rewrite Forall_map. eapply Forall_impl; [|exact Ht]. intros t (A & B). apply plain_tensor; assumption.
Qed.
Lemma plain_path p : plain (F := F) (enc_path F p).
Proof. constructor. rewrite Forall_map. apply Forall_forall. intros x _. apply plain_ints. Qed.
Lemma plain_res (r : results F) : plain_results r -> plain (enc_results r).
Proof.
  intros (Hc & Hs). unfold enc_results.
  assert (Hp : plain (VList (map (enc_path F) (r_paths r)))) by (constructor; rewrite Forall_map; apply Forall_forall; intros x _; apply plain_path).
  apply plain_dict.
  - destruct (r_sliced r) as [(s, ds)|]; cbn [map fst app]; nodup.
  - apply Forall_app. split; [repeat apply Forall_cons; cbn [snd]; [apply plain_text; exact Hc|constructor|apply plain_path|exact Hp|constructor]|].
    destruct (r_sliced r) as [(s, ds)|]; [|constructor]. destruct Hs as (A & B). repeat apply Forall_cons; cbn [snd]; [|constructor; exact A|constructor].
    constructor. rewrite Forall_map. eapply Forall_impl; [|exact B]. intros l Hl. constructor. exact Hl.
Qed.

Lemma loads_plain_output n l : plain_network n -> Forall (@plain_results F) l -> loads fread (json_output frepr n l) = Some (output_value n l).
Proof.
  intros Hn Hl. destruct (norm_plain frepr (plain_net Hn)) as (Wn & En).
  assert (Wl : Forall (fun r => well_coded (enc_results r)) l) by (eapply Forall_impl; [|exact Hl]; intros r Hr; apply (norm_plain frepr (plain_res Hr))).
  rewrite (loads_output Wn Wl). unfold output_value. rewrite En. do 5 f_equal. rewrite map_map. rewrite Forall_forall in Hl. f_equal. apply map_ext_in. intros r Hr. apply (norm_plain frepr (plain_res (Hl r Hr))).
Qed.

(** ** What the value shows *)
Lemma shows_entries e : shows frepr e (enc_entries frepr e).
Proof.
  induction e as [b|z|x|a b|l IH] using entries_ind; cbn [enc_entries shows]; try reflexivity.
  - exists (float_str frepr a), (float_str frepr b). split; [reflexivity|]. split; intros x ->; reflexivity.
  - exists (map (enc_entries frepr) l). split; [reflexivity|]. split; [apply map_length|]. induction IH as [|e l He Hl IHl]; [exact I|]. cbn [map]. split; [exact He|exact IHl].
Qed.
Lemma Forall2_map (A B : Type) (R : A -> B -> Prop) (f : A -> B) l : (forall x, R x (f x)) -> Forall2 R l (map f l).
Proof. intros H. induction l; constructor; auto. Qed.
Lemma shows_tensor_enc t : shows_tensor frepr t (enc_tensor frepr t).
Proof.
  split; [reflexivity|]. split; [reflexivity|]. split; [|reflexivity]. destruct (t_array t) as [a|] eqn:E; unfold enc_tensor; rewrite E; [|reflexivity].
  eexists. split; [reflexivity|apply shows_entries].
Qed.
Lemma shows_results_enc (r : results F) : shows_results r (enc_results r).
Proof.
  unfold enc_results. split; [reflexivity|]. split; [reflexivity|]. split; [eexists; split; [reflexivity|reflexivity]|]. split; [apply Forall2_map; reflexivity|].
  destruct (r_sliced r) as [(s, ds)|]; [split; reflexivity|reflexivity].
Qed.
Lemma shows_output_value n l : shows_output frepr n l (output_value n l).
Proof.
  split; [|apply Forall2_map; apply shows_results_enc]. eexists. split; [reflexivity|]. split; [apply Forall2_map; apply shows_tensor_enc|]. split; reflexivity.
Qed.
Lemma json_output_printable n l : well_coded (enc_network frepr n) -> Forall (fun r => well_coded (enc_results r)) l -> printable (json_output frepr n l).
Proof.
  intros Hn Hl. rewrite json_output_eq. assert (Hr : well_coded (VList (map (@enc_results F) l))) by (constructor; rewrite Forall_map; exact Hl).
  constructor; [lia|]. apply Forall_app. split; [apply str_printable, str_code|]. do 3 (constructor; [lia|]). apply Forall_app. split; [apply dumps_printable; exact Hn|]. do 2 (constructor; [lia|]).
  apply Forall_app. split; [apply str_printable, str_code|]. do 3 (constructor; [lia|]). apply Forall_app. split; [apply dumps_printable; exact Hr|lits].
Qed.
End JsonTn.
