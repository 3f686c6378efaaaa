(** * The parser does the same with the lexer of one text. *)
From Coq Require Import ZArith String Ascii List Arith Lia Bool.
From Verif Require Import FbldModel FbldSpec FbldParse FbldLex.
Import ListNotations.
Local Open Scope list_scope.
Notation length := List.length.
Notation bind := FbldModel.bind.

Definition same_out {A} (x : out (A * lex)) (y : out (A * alex)) : Prop :=
  match x, y with Ok (a, l), Ok (b, m) => a = b /\ rel l m | Stop w, Stop w' => w = w' | _, _ => False end.
Definition same_lex (x : out lex) (y : out alex) : Prop :=
  match x, y with Ok l, Ok m => rel l m | Stop w, Stop w' => w = w' | _, _ => False end.
Lemma so_ret : forall {A} (a : A) l m, rel l m -> same_out (Ok (a, l)) (Ok (a, m)).
Proof. intros. split; auto. Qed.
Lemma so_bind : forall {A B} (x : out (A * lex)) (y : out (A * alex)) (k : A * lex -> out (B * lex)) (k' : A * alex -> out (B * alex)),
  same_out x y -> (forall a l m, rel l m -> same_out (k (a, l)) (k' (a, m))) -> same_out (bind x k) (bind y k').
Proof. intros A B [[a l]|w] [[b m]|w'] k k' H K; cbn in *; try tauto. destruct H as [<- R]. auto. Qed.
Lemma so_bindl : forall {B} (x : out lex) (y : out alex) (k : lex -> out (B * lex)) (k' : alex -> out (B * alex)),
  same_lex x y -> (forall l m, rel l m -> same_out (k l) (k' m)) -> same_out (bind x k) (bind y k').
Proof. intros B [l|w] [m|w'] k k' H K; cbn in *; try tauto. auto. Qed.
Lemma sl_bind : forall {A} (x : out (A * lex)) (y : out (A * alex)) (k : A * lex -> out lex) (k' : A * alex -> out alex),
  same_out x y -> (forall a l m, rel l m -> same_lex (k (a, l)) (k' (a, m))) -> same_lex (bind x k) (bind y k').
Proof. intros A [[a l]|w] [[b m]|w'] k k' H K; cbn in *; try tauto. destruct H as [<- R]. auto. Qed.
Lemma sl_bindl : forall (x : out lex) (y : out alex) (k : lex -> out lex) (k' : alex -> out alex),
  same_lex x y -> (forall l m, rel l m -> same_lex (k l) (k' m)) -> same_lex (bind x k) (bind y k').
Proof. intros [l|w] [m|w'] k k' H K; cbn in *; try tauto. auto. Qed.
Lemma so_is : forall l m s, token s = true -> rel l m -> same_out (o_is lex_ops l s) (o_is a_ops m s).
Proof. intros l m s T R. destruct (is_rel l m s R T) as [l1 [E R1]]. change (o_is lex_ops l s) with (is l s). rewrite E. split; auto. Qed.
Lemma so_char : forall l m, rel l m -> same_out (o_char lex_ops l) (o_char a_ops m).
Proof. intros l m R. destruct (char_rel l m R) as [l1 [E R1]]. change (o_char lex_ops l) with (char_of l). rewrite E. split; auto. Qed.
Lemma so_adv : forall l m, rel l m -> same_lex (o_adv lex_ops l) (o_adv a_ops m).
Proof. intros l m R. pose proof (advance_rel l m R) as H. change (o_adv lex_ops l) with (advance l). change (o_adv a_ops m) with (a_advance m). destruct (a_advance m); [destruct H as [l1 [-> R1]]; auto|rewrite H; cbn; auto]. Qed.
Lemma rel_set : forall l m n, rel l m -> rel (o_set lex_ops l n) (o_set a_ops m n).
Proof. intros. apply set_rel. auto. Qed.
Lemma col_eq : forall l m, rel l m -> o_col lex_ops l = o_col a_ops m.
Proof. intros l m []. auto. Qed.
Lemma ind_eq : forall l m, rel l m -> o_indent lex_ops l = o_indent a_ops m.
Proof. intros l m []. auto. Qed.

Ltac sim1 := first
  [ apply so_ret | apply so_is; [reflexivity|] | apply so_char | apply so_adv | apply rel_set | assumption
  | apply so_bind; [|intros ? ? ? ?] | apply so_bindl; [|intros ? ? ?] | apply sl_bind; [|intros ? ? ? ?] | apply sl_bindl; [|intros ? ? ?]
  | match goal with
    | |- same_out (Stop _) (Stop _) => reflexivity
    | |- same_lex (Stop _) (Stop _) => reflexivity
    | |- same_lex (Ok _) (Ok _) => cbn
    | R : rel ?l ?m |- context [o_col lex_ops ?l] => rewrite (col_eq l m R)
    | R : rel ?l ?m |- context [o_indent lex_ops ?l] => rewrite (ind_eq l m R)
    | |- same_out (if ?b then _ else _) _ => destruct b
    | |- same_lex (if ?b then _ else _) _ => destruct b
    | |- same_out (match ?b with _ => _ end) _ => destruct b
    end ].

Lemma sim_name : forall f l m acc, rel l m -> same_out (p_name lex_ops f l acc) (p_name a_ops f m acc).
Proof. induction f as [|f IH]; intros l m acc R; [reflexivity|]. cbn [p_name]. repeat first [apply IH | sim1]. Qed.
Lemma sim_literal : forall f l m n acc, rel l m -> same_out (p_literal lex_ops f l n acc) (p_literal a_ops f m n acc).
Proof. induction f as [|f IH]; intros l m n acc R; [reflexivity|]. cbn [p_literal]. cbv zeta. repeat first [apply IH | sim1]. Qed.
Lemma sim_blank : forall f l m, rel l m -> same_lex (p_blank lex_ops f l) (p_blank a_ops f m).
Proof. induction f as [|f IH]; intros l m R; [reflexivity|]. cbn [p_blank]. repeat first [apply IH | sim1]. Qed.
Lemma sim_lines : forall f l m acc, rel l m -> same_out (p_lines lex_ops f l acc) (p_lines a_ops f m acc).
Proof. induction f as [|f IH]; intros l m acc R; [reflexivity|]. cbn [p_lines]. repeat first [apply IH | sim1]. Qed.
Lemma sim_inline : forall f, (forall l m acc, rel l m -> same_out (p_args lex_ops f l acc) (p_args a_ops f m acc)) /\
  (forall l m ctx chars ds, rel l m -> same_out (p_inline lex_ops f l ctx chars ds) (p_inline a_ops f m ctx chars ds)).
Proof.
  induction f as [|f [IH1 IH2]]; split; intros; try reflexivity.
  - cbn [p_args]. repeat first [apply IH1 | apply IH2 | apply sim_literal | sim1].
  - cbn [p_inline]. cbv zeta. repeat first [apply IH1 | apply IH2 | apply sim_name | sim1].
Qed.
Lemma sim_block : forall f, (forall l m x acc, rel l m -> same_out (p_command lex_ops f l x acc) (p_command a_ops f m x acc)) /\
  (forall l m ds, rel l m -> same_out (p_block lex_ops f l ds) (p_block a_ops f m ds)).
Proof.
  induction f as [|f [IH1 IH2]]; split; intros; try reflexivity.
  - cbn [p_command]. cbv zeta. repeat first [apply IH1 | apply IH2 | apply sim_inline | apply sim_lines | apply sim_blank | sim1].
  - cbn [p_block]. cbv zeta. repeat first [apply IH1 | apply IH2 | apply sim_inline | apply sim_name | apply sim_blank | sim1].
Qed.
