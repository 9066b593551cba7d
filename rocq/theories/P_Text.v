(** Proofs about reading strings that list indices. *)
From Verif Require Import P_Base P_Opt P_PyMain.
From Coq Require Import List Arith ZArith Bool Lia.
Import ListNotations.
From Verif Require Import M_Base M_Path M_PyTree M_Text S_Text.
Set Implicit Arguments. Unset Strict Implicit.
Local Open Scope nat_scope.

(** ** Regular expressions *)
Inductive mt : regex -> list nat -> list nat -> Prop :=
| mt_class p c l : p c = true -> mt (Class p) (c :: l) l
| mt_cat a b l l1 l2 : mt a l l1 -> mt b l1 l2 -> mt (Cat a b) l l2
| mt_star0 a l : mt (Star a) l l
| mt_star1 a l l1 l2 : mt a l l1 -> length l1 < length l -> mt (Star a) l1 l2 -> mt (Star a) l l2
| mt_end : mt End_ [] [].

Lemma rests_mt r : forall l l', In l' (rests r l) <-> mt r l l'.
Proof.
  induction r as [p|a IHa b IHb|a IHa|]; intros l l'.
  - cbn. destruct l as [|c l]; [split; [intros []|intros H; inversion H]|]. destruct (p c) eqn:E; split.
    + intros [<-|[]]. constructor; auto.
    + intros H; inversion H; subst; left; auto.
    + intros [].
    + intros H; inversion H; subst; congruence.
  - cbn. rewrite in_flat_map. split.
    + intros (x & H1 & H2). apply IHa in H1. apply IHb in H2. econstructor; eauto.
    + intros H; inversion H; subst. exists l1. split; [apply IHa|apply IHb]; auto.
  - cbn [rests]. set (star := fix star (fuel : nat) (l : list nat) := _).
    assert (G : forall n l, length l <= n -> forall l', In l' (star n l) <-> mt (Star a) l l').
    { intros n. induction n as [|n IH]; intros k Hk k'.
      - destruct k; [|simpl in Hk; lia]. cbn. split; [intros [<-|[]]; constructor|]. intros H; inversion H; subst; auto. simpl in *; lia.
      - cbn [star]. cbn [In]. rewrite in_flat_map. split.
        + intros [<-|(x & H1 & H2)]; [constructor|]. destruct (length x <? length k) eqn:E; [|destruct H2]. apply Nat.ltb_lt in E.
          apply IHa in H1. apply IH in H2; [|lia]. econstructor; eauto.
        + intros H; inversion H; subst; [left; auto|]. right. exists l1. split; [apply IHa; auto|]. match goal with H : length _ < length _ |- _ => rewrite (proj2 (Nat.ltb_lt _ _) H) end. apply IH; auto. lia. }
    apply G; auto.
  - cbn. destruct l; split.
    + intros [<-|[]]; constructor.
    + intros H; inversion H; subst; left; auto.
    + intros [].
    + intros H; inversion H.
Qed.
Lemma matches_mt r l : matches r l = true <-> exists l', mt r l l'.
Proof.
  unfold matches. split.
  - intros H. destruct (rests r l) as [|x k] eqn:E; [discriminate|]. exists x. apply rests_mt. rewrite E. left; auto.
  - intros (l' & H). apply rests_mt in H. destruct (rests r l); [destruct H|auto].
Qed.
Lemma star_class p l l' : mt (Star (Class p)) l l' <-> exists a, l = a ++ l' /\ forall c, In c a -> p c = true.
Proof.
  split.
  - intros H. remember (Star (Class p)) as r eqn:Er. revert Er. induction H; intros Er; inversion Er; subst.
    + exists []. split; [auto|intros _ []].
    + clear IHmt1. inversion H; subst. destruct (IHmt2 eq_refl) as (b & -> & Hb). exists (c :: b). split; auto. intros x [<-|Hx]; auto.
  - intros (a & -> & Ha). induction a as [|c a IH]; [constructor|]. cbn [app]. econstructor; [constructor; apply Ha; left; auto|simpl; lia|]. apply IH. intros; apply Ha; right; auto.
Qed.
Lemma plus_class p l l' : mt (Plus (Class p)) l l' <-> exists a, a <> [] /\ l = a ++ l' /\ forall c, In c a -> p c = true.
Proof.
  split.
  - intros H. inversion H; subst. match goal with H : mt (Class _) _ _ |- _ => inversion H; subst end. match goal with H : mt (Star _) _ _ |- _ => apply star_class in H as (a & -> & Ha) end.
    exists (c :: a). split; [discriminate|]. split; auto. intros x [<-|Hx]; auto.
  - intros (a & Hn & -> & Ha). destruct a as [|c a]; [congruence|]. econstructor; [constructor; apply Ha; left; auto|]. apply star_class. exists a. split; auto. intros; apply Ha; right; auto.
Qed.

Section Text.
Variable space : nat -> bool.
Variable digit : nat -> option nat.
Variable newline : nat -> bool.
Variable upper : nat -> list nat.
Variable limit : option nat.
Local Notation spaces := (spaces space).
Local Notation word := (word space).
Local Notation words_are := (words_are space).
Local Notation is_digit := (is_digit digit).

Lemma is_digit_some c : is_digit c = true <-> digit c <> None.
Proof. unfold M_Text.is_digit. destruct (digit c); split; intros; auto; congruence. Qed.

Lemma tail_words l l2 a : mt (Star (Cat (Plus (Class space)) (Plus (Class (fun c => negb (space c)))))) l l2 -> l2 = a -> spaces a -> exists ws, words_are l ws.
Proof.
  intros H. remember (Star _) as r eqn:Er. revert Er. induction H; intros Er E Ha; inversion Er; subst.
  - exists []. constructor; auto.
  - clear IHmt1. destruct (IHmt2 eq_refl eq_refl Ha) as (ws & Hws). inversion H; subst.
    match goal with H : mt (Plus (Class space)) _ _ |- _ => apply plus_class in H as (sp & Hs1 & -> & Hs2) end.
    match goal with H : mt (Plus _) _ _ |- _ => apply plus_class in H as (w & Hw1 & -> & Hw2) end.
    exists (w :: ws). constructor; auto. split; auto. intros c Hc. apply Hw2, negb_true_iff in Hc. auto.
Qed.
Lemma words_tail l ws : words_are l ws -> exists l2, mt (Star (Cat (Plus (Class space)) (Plus (Class (fun c => negb (space c)))))) l l2 /\ spaces l2.
Proof.
  induction 1 as [l Hl|sp w l ws Hs1 Hs2 (Hw1 & Hw2) H (l2 & H1 & H2)]; [exists l; split; [constructor|auto]|]. exists l2. split; auto.
  econstructor; [| |exact H1].
  - econstructor; [apply plus_class; exists sp; split; [auto|]; split; [reflexivity|auto]|]. apply plus_class. exists w. split; auto. split; auto. intros c Hc. rewrite (Hw2 c Hc). auto.
  - rewrite !app_length. destruct sp; [congruence|]. simpl. lia.
Qed.
Lemma entry_re_ok l : matches (entry_re space digit) l = true <-> exists n rest ws, l = n ++ rest /\ n <> [] /\ (forall c, In c n -> digit c <> None) /\ words_are rest ws.
Proof.
  rewrite matches_mt. split.
  - intros (l' & H). inversion H; subst. match goal with H : mt (Plus _) _ _ |- _ => apply plus_class in H as (n & Hn & -> & Hd) end.
    match goal with H : mt (Cat (Star (Cat _ _)) _) _ _ |- _ => inversion H; subst; clear H end.
    match goal with H : mt (Cat (Star (Class _)) End_) _ _ |- _ => inversion H; subst; clear H end.
    match goal with H : mt End_ _ _ |- _ => inversion H; subst; clear H end.
    match goal with H : mt (Star (Class space)) _ _ |- _ => apply star_class in H as (a & Ea & Ha) end. rewrite app_nil_r in Ea.
    match goal with H : mt (Star (Cat _ _)) _ _ |- _ => destruct (tail_words H Ea Ha) as (ws & Hws) end.
    exists n. eexists. exists ws. split; [reflexivity|]. split; auto. split; auto. intros c Hc. apply is_digit_some. auto.
  - intros (n & rest & ws & -> & Hn & Hd & Hws). destruct (words_tail Hws) as (l2 & H1 & H2). exists []. econstructor.
    + apply plus_class. exists n. split; auto. split; [reflexivity|]. intros c Hc. apply is_digit_some; auto.
    + econstructor; [exact H1|]. econstructor; [|constructor]. apply star_class. exists l2. rewrite app_nil_r. auto.
Qed.
Lemma spaces_dec l : {spaces l} + {exists a c b, l = a ++ c :: b /\ spaces a /\ space c = false}.
Proof.
  induction l as [|c l [IH|IH]]; [left; intros _ []| |].
  - destruct (space c) eqn:E; [left; intros x [<-|Hx]; auto|]. right. exists [], c, l. split; auto. split; [intros _ []|auto].
  - destruct (space c) eqn:E.
    + right. destruct IH as (a & x & b & -> & Ha & Hx). exists (c :: a), x, b. split; auto. split; auto. intros y [<-|Hy]; auto.
    + right. exists [], c, l. split; auto. split; [intros _ []|auto].
Qed.
Lemma visible_ok l : matches (visible_re space) l = true <-> ~ spaces l.
Proof.
  rewrite matches_mt. split.
  - intros (l' & H) Hs. inversion H; subst. match goal with H : mt (Class _) _ _ |- _ => inversion H; subst end. match goal with H : mt (Star _) _ _ |- _ => apply star_class in H as (a & -> & Ha) end.
    rewrite (Hs c) in *; [discriminate|]. apply in_or_app. right; left; auto.
  - intros Hn. destruct (spaces_dec l) as [H|H]; [contradiction|]. destruct H as (a & c & b & -> & Ha & Hc). exists b. econstructor; [apply star_class; exists a; split; [reflexivity|auto]|]. constructor. rewrite Hc. auto.
Qed.
Lemma starts_hash l : starts_with [hash] l = true <-> comment_line l.
Proof.
  unfold comment_line. destruct l as [|c l]; cbn [starts_with]; [split; [discriminate|intros (x & E); discriminate]|].
  rewrite andb_true_r. split; [intros E; apply Nat.eqb_eq in E; subst; eauto|intros (x & E); inversion E; subst; apply Nat.eqb_refl].
Qed.
Lemma bad_ok l : bad space digit l = false <-> blank_line space l \/ comment_line l \/ matches (entry_re space digit) l = true.
Proof.
  unfold bad. destruct (matches (visible_re space) l) eqn:E1; cbn [andb].
  - apply visible_ok in E1. destruct (starts_with [hash] l) eqn:E2; cbn [andb negb].
    + apply starts_hash in E2. tauto.
    + assert (~ comment_line l) by (rewrite <- starts_hash; congruence). destruct (matches (entry_re space digit) l); cbn; unfold blank_line; [tauto|]. split; [discriminate|]. intros [H1|[H1|H1]]; [contradiction|contradiction|discriminate].
  - split; auto. intros _. left. unfold blank_line. destruct (spaces_dec l) as [H|H]; auto. assert (~ spaces l) as Hn. { destruct H as (a & c & b & -> & _ & Hc). intros Hs. rewrite (Hs c) in Hc; [discriminate|]. apply in_or_app. right; left; auto. } apply visible_ok in Hn. congruence.
Qed.

(** ** Words *)
Section Words.
Hypothesis Hb : space blank = true.
Lemma split_spaces sp l : spaces sp -> split space [] (sp ++ l) = split space [] l.
Proof. induction sp as [|c sp IH]; intros H; auto. cbn. rewrite (H c (or_introl eq_refl)). apply IH. intros x Hx; apply H; right; auto. Qed.
Lemma split_word w : (forall c, In c w -> space c = false) -> forall cur l, split space cur (w ++ l) = split space (cur ++ w) l.
Proof.
  induction w as [|c w IH]; intros H cur l; [rewrite app_nil_r; auto|]. cbn. rewrite (H c (or_introl eq_refl)), IH; [|intros; apply H; right; auto]. rewrite <- app_assoc. auto.
Qed.
Lemma split_end sp : spaces sp -> forall l cur, split space cur (l ++ sp) = split space cur l.
Proof.
  intros H. induction l as [|c l IH]; intros cur; cbn [app].
  - destruct cur as [|x cur].
    + rewrite <- (app_nil_r sp). rewrite split_spaces; auto.
    + destruct sp as [|c sp]; auto. cbn. rewrite (H c (or_introl eq_refl)). f_equal. rewrite <- (app_nil_r sp), split_spaces; auto. intros y Hy; apply H; right; auto.
  - cbn. destruct (space c); [destruct cur; rewrite IH; auto|]. apply IH.
Qed.
Lemma split_squash l : (forall cur, split space cur (squash space false l) = split space cur l) /\ split space [] (squash space true l) = split space [] l.
Proof.
  induction l as [|c l (IH1 & IH2)]; [split; auto|]. cbn. destruct (space c) eqn:E.
  - split; [|auto]. intros cur. cbn. rewrite Hb. destruct cur; rewrite IH2; auto.
  - split; [intros cur|]; cbn; rewrite E; apply IH1.
Qed.
Lemma lstrip_ok l : exists sp, l = sp ++ lstrip space l /\ spaces sp.
Proof.
  induction l as [|c l (sp & E & H)]; [exists []; split; [auto|intros _ []]|]. cbn. destruct (space c) eqn:Ec.
  - exists (c :: sp). split; [cbn; f_equal; auto|]. intros x [<-|Hx]; auto.
  - exists []. split; [auto|intros _ []].
Qed.
Lemma split_strip l : split space [] (strip space l) = split space [] l.
Proof.
  unfold strip. destruct (lstrip_ok l) as (s1 & E1 & H1). destruct (lstrip_ok (rev (lstrip space l))) as (s2 & E2 & H2).
  rewrite E1 at 2. rewrite split_spaces; auto. assert (E : lstrip space l = rev (lstrip space (rev (lstrip space l))) ++ rev s2).
  { rewrite <- rev_app_distr, <- E2, rev_involutive. auto. }
  rewrite E at 2. rewrite split_end; auto. intros c Hc. apply H2. apply in_rev. auto.
Qed.
Lemma split_words rest ws : words_are rest ws -> forall n, n <> [] -> split space n rest = n :: ws.
Proof.
  induction 1 as [l Hl|sp w l ws Hs1 Hs2 (Hw1 & Hw2) H IH]; intros n Hn.
  - rewrite <- (app_nil_l l). rewrite (split_end Hl). destruct n; [congruence|auto].
  - destruct sp as [|c sp]; [congruence|]. cbn. rewrite (Hs2 c (or_introl eq_refl)). destruct n as [|x n]; [congruence|]. f_equal.
    rewrite split_spaces; [|intros y Hy; apply Hs2; right; auto]. rewrite (@split_word w Hw2). cbn [app]. apply IH. exact Hw1.
Qed.
Lemma read_words n rest ws : n <> [] -> (forall c, In c n -> space c = false) -> words_are rest ws -> split space [] (strip space (squash space false (n ++ rest))) = n :: ws.
Proof. intros H1 H2 H3. rewrite split_strip, (proj1 (split_squash _)), split_word; auto. cbn [app]. apply split_words; auto. Qed.
End Words.

(** ** Numbers *)
Lemma decimal_app l k : forall acc, decimal digit acc (l ++ k) = let! z := decimal digit acc l in decimal digit z k.
Proof. induction l as [|c l IH]; intros acc; cbn; auto. destruct (digit c); auto. Qed.
Lemma denotes_ok n z : denotes digit n z -> n <> [] /\ (forall c, In c n -> digit c <> None) /\ decimal digit 0 n = Ok z.
Proof.
  induction 1 as [c k E|l z c k H (I1 & I2 & I3) E].
  - split; [discriminate|]. split; [intros x [<-|[]]; congruence|]. cbn. rewrite E. auto.
  - split; [destruct l; discriminate|]. split; [intros x Hx; apply in_app_or in Hx as [Hx|[<-|[]]]; [auto|congruence]|]. rewrite decimal_app, I3. cbn [bind decimal]. rewrite E. auto.
Qed.
Lemma denotes_ex n : n <> [] -> (forall c, In c n -> digit c <> None) -> exists z, denotes digit n z.
Proof.
  induction n as [|c n IH] using rev_ind; intros H1 H2; [congruence|]. destruct (digit c) as [k|] eqn:E; [|exfalso; apply (H2 c); [apply in_or_app; right; left; auto|auto]].
  destruct n as [|x n]; [exists (Z.of_nat k); cbn; constructor; auto|]. destruct IH as (z & Hz); [discriminate|intros y Hy; apply H2; apply in_or_app; auto|]. eexists. eapply denotes_more; eauto.
Qed.
Lemma to_int_ok n z : denotes digit n z -> to_int digit limit n = if match limit with Some k => k <? length n | None => false end then Err Throw else Ok z.
Proof. intros H. apply denotes_ok in H as (H1 & H2 & H3). unfold to_int. destruct n; [congruence|]. rewrite H3. destruct limit; auto. Qed.

(** ** Lines *)
Lemma split_line l : (forall c, In c l -> newline c = false) -> forall cur k, splitlines newline cur (l ++ k) = splitlines newline (cur ++ l) k.
Proof. induction l as [|c l IH]; intros H cur k; [rewrite app_nil_r; auto|]. cbn. rewrite (H c (or_introl eq_refl)), IH; [|intros; apply H; right; auto]. rewrite <- app_assoc. auto. Qed.
Lemma lines_fun s ls : newline cr = true -> lines_are newline s ls -> splitlines newline [] s = ls.
Proof.
  intros Hcr. induction 1 as [|l H1 H2|l s ls H1 H IH|l c s ls H1 H2 H3 H IH]; auto.
  - rewrite <- (app_nil_r l) at 1. rewrite split_line; auto. cbn. destruct l; congruence.
  - rewrite split_line; auto. cbn [app splitlines]. rewrite Hcr. cbn [Nat.eqb andb]. rewrite IH. auto.
  - rewrite split_line; auto. cbn [app splitlines]. rewrite H2. f_equal. destruct s as [|d s]; [auto|].
    destruct ((c =? cr) && (d =? lf)) eqn:E; [|exact IH]. apply andb_true_iff in E as (E1 & E2). apply Nat.eqb_eq in E1, E2. subst. exfalso. apply H3. eauto.
Qed.
Lemma lines_ex n : forall s cur, length s <= n -> (forall c, In c cur -> newline c = false) -> newline cr = true -> lines_are newline (cur ++ s) (splitlines newline cur s).
Proof.
  induction n as [|n IH]; intros s cur Hl Hc Hcr.
  - destruct s; [|simpl in Hl; lia]. rewrite app_nil_r. cbn. destruct cur; [constructor|]. apply lines_last; auto. discriminate.
  - destruct s as [|c s]; [rewrite app_nil_r; cbn; destruct cur; [constructor|]; apply lines_last; auto; discriminate|]. cbn [splitlines]. cbn [length] in Hl. destruct (newline c) eqn:E.
    + destruct s as [|d s]; [apply lines_one; auto; [intros (_ & x & Ex); discriminate|constructor]|]. destruct ((c =? cr) && (d =? lf)) eqn:E2.
      * apply andb_true_iff in E2 as (E3 & E4). apply Nat.eqb_eq in E3, E4. subst. apply lines_crlf; auto. apply (IH s []); [cbn [length] in Hl; lia|intros _ []|auto].
      * apply lines_one; auto; [|apply (IH (d :: s) []); [lia|intros _ []|auto]]. intros (E3 & x & Ex). inversion Ex; subst. rewrite !Nat.eqb_refl in E2. discriminate.
    + replace (cur ++ c :: s) with ((cur ++ [c]) ++ s) by (rewrite <- app_assoc; auto). apply IH; [lia| |auto]. intros x Hx. apply in_app_or in Hx as [Hx|[<-|[]]]; auto.
Qed.

(** ** The text *)
Hypothesis U : unicode space digit newline upper.
Local Notation entry_line := (entry_line space digit).
Local Notation lists := (lists space digit).

Lemma entry_matches lim l e : entry_line lim l e -> matches (entry_re space digit) l = true.
Proof. intros (n & rest & -> & Hn & _ & Hw). apply denotes_ok in Hn as (H1 & H2 & _). apply entry_re_ok. exists n, rest, (snd e). auto. Qed.
Lemma matches_entry l : matches (entry_re space digit) l = true -> exists e, entry_line None l e.
Proof. intros H. apply entry_re_ok in H as (n & rest & ws & -> & Hn & Hd & Hw). destruct (denotes_ex Hn Hd) as (z & Hz). exists (z, ws), n, rest. split; auto. split; auto. split; [discriminate|auto]. Qed.
Lemma read_entry l e : entry_line limit l e -> read_line space digit limit l = Ok e.
Proof.
  intros (n & rest & -> & Hn & Hk & Hw). destruct (denotes_ok Hn) as (H1 & H2 & _). unfold read_line. rewrite (read_words (u_blank U) H1 (fun c Hc => u_digit U _ (H2 c Hc)) Hw).
  rewrite (to_int_ok Hn). destruct limit as [k|]; [rewrite (proj2 (Nat.ltb_ge _ _) (Hk k eq_refl))|]; cbn [bind]; destruct e; auto.
Qed.
Lemma read_entry_inv l e : matches (entry_re space digit) l = true -> read_line space digit limit l = Ok e -> entry_line limit l e.
Proof.
  intros H E. apply entry_re_ok in H as (n & rest & ws & -> & Hn & Hd & Hw). destruct (denotes_ex Hn Hd) as (z & Hz). unfold read_line in E. rewrite (read_words (u_blank U) Hn (fun c Hc => u_digit U _ (Hd c Hc)) Hw) in E.
  rewrite (to_int_ok Hz) in E. exists n, rest. split; auto. destruct limit as [k|].
  - destruct (k <? length n) eqn:El; [discriminate|]. cbn in E. inversion E; subst. split; auto. split; auto. intros k0 Ek. inversion Ek; subst. apply Nat.ltb_ge; auto.
  - cbn in E. inversion E; subst. split; auto. split; auto. discriminate.
Qed.
Lemma read_entry_err l : matches (entry_re space digit) l = true -> forall e, read_line space digit limit l = Err e -> ~ exists x, entry_line limit l x.
Proof. intros _ e E (x & H). rewrite (read_entry H) in E. discriminate. Qed.

(** How a line that matters begins. *)
Lemma first_char lim l e : (blank_line space l \/ comment_line l) \/ entry_line lim l e -> l <> [] -> exists c l', l = c :: l' /\ (space c = true \/ digit c <> None \/ c = hash).
Proof.
  intros [[H|(l' & ->)]|(n & rest & -> & Hn & _)] Hne.
  - destruct l as [|c l]; [congruence|]. exists c, l. split; auto. left. apply H. left; auto.
  - exists hash, l'. auto.
  - apply denotes_ok in Hn as (H1 & H2 & _). destruct n as [|c n]; [congruence|]. exists c, (n ++ rest). split; auto. right; left. apply H2. left; auto.
Qed.
Lemma skip_no_match l : blank_line space l \/ comment_line l -> matches (entry_re space digit) l = false.
Proof.
  intros H. destruct (matches (entry_re space digit) l) eqn:E; auto. exfalso. apply entry_re_ok in E as (n & rest & ws & -> & Hn & Hd & _). destruct n as [|c n]; [congruence|]. assert (Hc : digit c <> None) by (apply Hd; left; auto).
  destruct H as [H|(l' & E)].
  - assert (space c = true) by (apply H; left; auto). rewrite (u_digit U _ Hc) in *. discriminate.
  - inversion E; subst. apply Hc. apply (u_hash U).
Qed.
Lemma lists_line lim ls es : lists lim ls es -> forall l, In l ls -> (blank_line space l \/ comment_line l) \/ exists e, entry_line lim l e.
Proof. induction 1 as [|l ls es Hs H IH|l e ls es He H IH]; intros x Hx; [destruct Hx| |]; (destruct Hx as [<-|Hx]; [|auto]); [auto|right; eauto]. Qed.
Lemma lists_bad lim ls es : lists lim ls es -> existsb (bad space digit) ls = false.
Proof.
  intros H. destruct (existsb (bad space digit) ls) eqn:E; auto. apply existsb_exists in E as (l & Hl & E). assert (bad space digit l = false); [|congruence].
  apply bad_ok. destruct (lists_line H Hl) as [[?|?]|(e & He)]; auto. right; right. eapply entry_matches; eauto.
Qed.
Lemma lists_read ls es : lists limit ls es -> mapM (read_line space digit limit) (filter (matches (entry_re space digit)) ls) = Ok es.
Proof.
  induction 1 as [|l ls es Hs H IH|l e ls es He H IH]; auto; cbn [filter].
  - rewrite (skip_no_match Hs). auto.
  - rewrite (entry_matches He). cbn [mapM]. rewrite (read_entry He). cbn [bind]. rewrite IH. auto.
Qed.
Lemma read_lists ls : existsb (bad space digit) ls = false -> forall es, mapM (read_line space digit limit) (filter (matches (entry_re space digit)) ls) = Ok es -> lists limit ls es.
Proof.
  induction ls as [|l ls IH]; intros Hb es E; cbn in *; [inversion E; constructor|]. apply orb_false_iff in Hb as (Hb1 & Hb2). destruct (matches (entry_re space digit) l) eqn:Em.
  - cbn [mapM] in E. apply bind_ok in E. destruct E as (e & E1 & E). apply bind_ok in E. destruct E as (es' & E2 & E). inversion E; subst. apply lists_entry; auto. apply read_entry_inv; auto.
  - apply lists_skip; auto. apply bad_ok in Hb1. destruct Hb1 as [?|[?|?]]; auto. congruence.
Qed.
Lemma lists_none ls : existsb (bad space digit) ls = false -> exists es, lists None ls es.
Proof.
  induction ls as [|l ls IH]; intros Hb; cbn in *; [exists []; constructor|]. apply orb_false_iff in Hb as (Hb1 & Hb2). destruct (IH Hb2) as (es & Hes). apply bad_ok in Hb1. destruct Hb1 as [H|[H|H]]; [exists es; apply lists_skip; auto|exists es; apply lists_skip; auto|].
  destruct (matches_entry H) as (e & He). exists (e :: es). apply lists_entry; auto.
Qed.

Definition chosen (x : list nat) : bool := negb (length x =? 0) && negb (starts_with slashes x).
Lemma not_slashes c l : space c = true \/ digit c <> None \/ c = hash -> starts_with slashes (c :: l) = false.
Proof.
  intros H. cbn [starts_with slashes]. destruct (47 =? c) eqn:E; auto. apply Nat.eqb_eq in E. subst. destruct (u_slash U) as (U1 & U2). destruct H as [H|[H|H]]; [congruence|congruence|discriminate].
Qed.
Lemma not_qasm c l : space c = true \/ digit c <> None \/ c = hash -> starts_with openqasm (flat_map upper (c :: l)) = false.
Proof. intros H. destruct (u_upper U H) as (d & k & E & Hd). cbn [flat_map]. rewrite E. cbn [app starts_with openqasm]. destruct (79 =? d) eqn:Ed; auto. apply Nat.eqb_eq in Ed. congruence. Qed.

Theorem text_ok s ls es : lines_are newline s ls -> lists limit ls es -> (exists l, In l ls /\ l <> []) -> read_text space digit newline upper limit s = Ok (Inds es).
Proof.
  intros Hl Hs (l & Hin & Hne). unfold read_text. rewrite (lines_fun (u_cr U) Hl). fold chosen. destruct (filter chosen ls) as [|x k] eqn:Ef.
  - exfalso. assert (In l (filter chosen ls)); [|rewrite Ef in *; contradiction]. apply filter_In. split; auto.
    assert (exists c l', l = c :: l' /\ (space c = true \/ digit c <> None \/ c = hash)) as (c & l' & -> & Hc). { destruct (lists_line Hs Hin) as [H1|(e & H1)]; [apply (@first_char None _ (0%Z, []))|eapply first_char; [right; exact H1|]]; auto. }
    unfold chosen. rewrite (not_slashes l' Hc). auto.
  - assert (Hx : In x (filter chosen ls)) by (rewrite Ef; left; auto). apply filter_In in Hx as (Hx & Hc). assert (Hxn : x <> []) by (destruct x; [discriminate|congruence]).
    assert (exists c l', x = c :: l' /\ (space c = true \/ digit c <> None \/ c = hash)) as (c & l' & -> & Hc'). { destruct (lists_line Hs Hx) as [H1|(e & H1)]; [apply (@first_char None _ (0%Z, []))|eapply first_char; [right; exact H1|]]; auto. }
    rewrite (not_qasm l' Hc'), (lists_bad Hs), (lists_read Hs). auto.
Qed.
Theorem text_inv s : exists ls, lines_are newline s ls /\
  match read_text space digit newline upper limit s with
  | Ok (Inds es) => lists limit ls es
  | Ok _ => forall lim es, ~ lists lim ls es
  | Err _ => (forall l, In l ls -> l = [] \/ exists l', l = slashes ++ l') \/ (exists es, lists None ls es) /\ forall es, ~ lists limit ls es
  end.
Proof.
  exists (splitlines newline [] s). split; [apply (@lines_ex (length s) s []); auto; [intros _ []|apply (u_cr U)]|]. unfold read_text. fold chosen. set (ls := splitlines newline [] s). destruct (filter chosen ls) as [|x k] eqn:Ef.
  - left. intros l Hl. destruct l as [|c l]; auto. right. destruct (starts_with slashes (c :: l)) eqn:E.
    + unfold slashes in *. cbn [starts_with] in E. destruct l as [|d l]; [rewrite andb_false_r in E; discriminate|]. rewrite andb_true_r in E. apply andb_true_iff in E as (E1 & E2). apply Nat.eqb_eq in E1, E2. subst. exists l. auto.
    + exfalso. assert (In (c :: l) (filter chosen ls)); [|rewrite Ef in *; contradiction]. apply filter_In. split; auto. unfold chosen. rewrite E. auto.
  - assert (Hx : In x (filter chosen ls)) by (rewrite Ef; left; auto). apply filter_In in Hx as (Hx & Hc). assert (Hxn : x <> []) by (destruct x; [discriminate|congruence]).
    destruct (starts_with openqasm (flat_map upper x)) eqn:Eq.
    + intros lim es H. assert (exists c l', x = c :: l' /\ (space c = true \/ digit c <> None \/ c = hash)) as (c & l' & -> & Hc'). { destruct (lists_line H Hx) as [H1|(e & H1)]; [apply (@first_char None _ (0%Z, []))|eapply first_char; [right; exact H1|]]; auto. }
      rewrite (not_qasm l' Hc') in Eq. discriminate.
    + destruct (existsb (bad space digit) ls) eqn:Eb; [intros lim es H; rewrite (lists_bad H) in Eb; discriminate|].
      destruct (mapM (read_line space digit limit) (filter (matches (entry_re space digit)) ls)) as [es|e] eqn:Er; cbn [bind].
      * apply read_lists; auto.
      * right. split; [apply lists_none; auto|]. intros es H. rewrite (lists_read H) in Er. discriminate.
Qed.
End Text.
