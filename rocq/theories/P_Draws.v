(** Programs that draw random numbers. *)
From Coq Require Import List Arith Reals Lia Lra Bool.
Import ListNotations.
From Verif Require Import M_Base M_Sampling S_Sampling.
Set Implicit Arguments.
Unset Strict Implicit.
Local Open Scope R_scope.

(** The expected value of [h] of the result. *)
Fixpoint E (X : Type) (h : res X -> R) (t : draws X) : R :=
  match t with Return x => h x | Draw p yes no => p * E h yes + (1 - p) * E h no end.

Lemma E_ext (X : Type) (h k : res X -> R) t : (forall r, h r = k r) -> E h t = E k t.
Proof. intros H. induction t as [x|p y IHy n IHn]; simpl; auto. rewrite IHy, IHn. auto. Qed.
Lemma E_const (X : Type) c (t : draws X) : E (fun _ => c) t = c.
Proof. induction t as [x|p y IHy n IHn]; simpl; auto. rewrite IHy, IHn. ring. Qed.
Lemma E_scale (X : Type) c (h : res X -> R) (t : draws X) : E (fun r => h r * c) t = E h t * c.
Proof. induction t as [x|p y IHy n IHn]; simpl; auto. rewrite IHy, IHn. ring. Qed.
Lemma E_then (X Y : Type) (h : res Y -> R) (t : draws X) (k : X -> draws Y) :
  E h (then_ t k) = E (fun r => match r with Ok x => E h (k x) | Err e => h (Err e) end) t.
Proof. induction t as [[x|e]|p y IHy n IHn]; simpl; auto. rewrite IHy, IHn. auto. Qed.
Lemma chance_E (X : Type) (P : res X -> bool) t : chance P t = E (fun r => if P r then 1 else 0) t.
Proof. induction t as [x|p y IHy n IHn]; simpl; auto. rewrite IHy, IHn. auto. Qed.

Lemma play_then (X Y : Type) (t : draws X) : forall u, exists m, forall (k : X -> draws Y),
  play u (then_ t k) = match play u t with Ok x => play (fun i => u (m + i)%nat) (k x) | Err e => Err e end.
Proof.
  induction t as [[x|e]|p y IHy n IHn]; intros u; simpl.
  - exists 0%nat. auto.
  - exists 0%nat. auto.
  - destruct (Rlt_dec (u 0%nat) p).
    + destruct (IHy (fun i => u (S i))) as (m & Hm). exists (S m). intros k. rewrite Hm. auto.
    + destruct (IHn (fun i => u (S i))) as (m & Hm). exists (S m). intros k. rewrite Hm. auto.
Qed.

(** The values of two independent programs. *)
Lemma chance_pair (X : Type) (dx : forall x y : X, {x = y} + {x <> y}) (dy : forall x y : list X, {x = y} + {x <> y}) (t : draws X) (t' : draws (list X)) x xs :
  chance (gives dy (x :: xs)) (then_ t (fun b => then_ t' (fun bs => Return (Ok (b :: bs))))) = chance (gives dx x) t * chance (gives dy xs) t'.
Proof.
  rewrite !chance_E, E_then, <- E_scale. apply E_ext. intros [y|e]; [|simpl; ring]. rewrite E_then. cbn [gives]. destruct (dx x y) as [Exy|Exy].
  - rewrite Rmult_1_l. apply E_ext. intros [ys|e]; cbn [E gives]; auto. destruct (dy (x :: xs) (y :: ys)), (dy xs ys); auto; congruence.
  - rewrite Rmult_0_l. transitivity (E (fun _ => 0) t'); [|apply E_const]. apply E_ext. intros [ys|e]; cbn [E gives]; auto. destruct (dy (x :: xs) (y :: ys)); auto; congruence.
Qed.
