(** * More steps do not change what the parser returns. *)
From Coq Require Import ZArith String Ascii List Arith Lia Bool.
From Verif Require Import FbldModel FbldSpec FbldParse.
Import ListNotations.
Local Open Scope list_scope.
Notation length := List.length.
Notation bind := FbldModel.bind.

Definition le_out {A} (x y : out A) : Prop := x = Stop Timeout \/ x = y.
Lemma le_refl : forall {A} (x : out A), le_out x x. Proof. intros. right. reflexivity. Qed.
Lemma le_bind : forall {A B} (x y : out A) (k k' : A -> out B), le_out x y -> (forall a, le_out (k a) (k' a)) -> le_out (bind x k) (bind y k').
Proof. intros A B x y k k' [->| ->] K; [left; reflexivity|]. destruct y; cbn; auto using le_refl. Qed.
Section Mono.
Context {L : Type} (O : ops L).
Ltac go := repeat first
  [ assumption | apply le_refl | match goal with H : forall _, _ |- _ => apply H end
  | apply le_bind; [|intros] 
  | match goal with |- le_out (match ?x with _ => _ end) _ => destruct x end ].

Lemma mono_name : forall f l acc, le_out (p_name O f l acc) (p_name O (S f) l acc).
Proof. induction f as [|f IH]; intros; [left; reflexivity|]. remember (S f) as g. cbn [p_name]. rewrite Heqg at 1. cbn [p_name]. fold (p_name O). go. Qed.
Lemma mono_literal : forall f l n acc, le_out (p_literal O f l n acc) (p_literal O (S f) l n acc).
Proof. induction f as [|f IH]; intros; [left; reflexivity|]. remember (S f) as g. cbn [p_literal]. rewrite Heqg at 1. cbn [p_literal]. go. Qed.
Lemma mono_blank : forall f l, le_out (p_blank O f l) (p_blank O (S f) l).
Proof. induction f as [|f IH]; intros; [left; reflexivity|]. remember (S f) as g. cbn [p_blank]. rewrite Heqg at 1. cbn [p_blank]. go. Qed.
Lemma mono_lines : forall f l acc, le_out (p_lines O f l acc) (p_lines O (S f) l acc).
Proof. induction f as [|f IH]; intros; [left; reflexivity|]. remember (S f) as g. cbn [p_lines]. rewrite Heqg at 1. cbn [p_lines]. go. Qed.
Lemma mono_inline : forall f, (forall l acc, le_out (p_args O f l acc) (p_args O (S f) l acc)) /\ (forall l ctx chars ds, le_out (p_inline O f l ctx chars ds) (p_inline O (S f) l ctx chars ds)).
Proof.
  induction f as [|f [IH1 IH2]]; [split; intros; left; reflexivity|]. pose proof (mono_name f) as M1. pose proof (mono_literal f) as M2. split; intros.
  - remember (S f) as g. cbn [p_args]. rewrite Heqg at 1. cbn [p_args]. go.
  - remember (S f) as g. cbn [p_inline]. rewrite Heqg at 1. cbn [p_inline]. go.
Qed.
Lemma mono_block : forall f, (forall l x acc, le_out (p_command O f l x acc) (p_command O (S f) l x acc)) /\ (forall l ds, le_out (p_block O f l ds) (p_block O (S f) l ds)).
Proof.
  induction f as [|f [IH1 IH2]]; [split; intros; left; reflexivity|]. pose proof (mono_name f) as M1. pose proof (mono_blank f) as M2. pose proof (mono_lines f) as M3. destruct (mono_inline f) as [M4 M5]. split; intros.
  - remember (S f) as g. cbn [p_command]. rewrite Heqg at 1. cbn [p_command]. go.
  - remember (S f) as g. cbn [p_block]. rewrite Heqg at 1. cbn [p_block]. go.
Qed.
Lemma mono_parse : forall f l, le_out (parse_ops O f l) (parse_ops O (S f) l).
Proof. intros. unfold parse_ops. apply le_bind; [apply mono_blank|]. intros. apply le_bind; [apply (proj2 (mono_block f))|]. intros [y l']. apply le_refl. Qed.
End Mono.
