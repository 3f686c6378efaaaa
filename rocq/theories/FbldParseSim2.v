(** * The parser does the same with lexers that do the same, whatever their indentation. *)
From Coq Require Import ZArith String Ascii List Arith Lia Bool.
From Verif Require Import FbldModel FbldSpec FbldParse FbldLex.
Import ListNotations.
Local Open Scope list_scope.
Notation length := List.length.
Notation bind := FbldModel.bind.

Section Sim.
Context {L1 L2 : Type} (O1 : ops L1) (O2 : ops L2) (R : nat -> L1 -> L2 -> Prop).
Definition so {A} (i : nat) (x : out (A * L1)) (y : out (A * L2)) : Prop :=
  match x, y with Ok (a, l), Ok (b, m) => a = b /\ R i l m | Stop w, Stop w' => w = w' | _, _ => False end.
Definition sl (i : nat) (x : out L1) (y : out L2) : Prop := match x, y with Ok l, Ok m => R i l m | Stop w, Stop w' => w = w' | _, _ => False end.
(** The lexers need not be the same after an error. *)
Definition sw {A} (i : nat) (x : out (option A * L1)) (y : out (option A * L2)) : Prop :=
  match x, y with Ok (a, l), Ok (b, m) => a = b /\ (a <> None -> R i l m) | Stop w, Stop w' => w = w' | _, _ => False end.
Hypothesis H_is : forall i l m s, token s = true -> R i l m -> so i (o_is O1 l s) (o_is O2 m s).
Hypothesis H_char : forall i l m, R i l m -> so i (o_char O1 l) (o_char O2 m).
Hypothesis H_adv : forall i l m, R i l m -> sl i (o_adv O1 l) (o_adv O2 m).
Hypothesis H_in : forall i l m, R i l m -> R (S i) (o_set O1 l (S (o_indent O1 l))) (o_set O2 m (S (o_indent O2 m))).
Hypothesis H_out : forall i l m, R (S i) l m -> R i (o_set O1 l (pred (o_indent O1 l))) (o_set O2 m (pred (o_indent O2 m))).
Hypothesis H_col : forall i l m, R i l m -> (o_col O1 l =? 1) = (o_col O2 m =? 1).

Lemma g_ret : forall {A} i (a : A) l m, R i l m -> so i (Ok (a, l)) (Ok (a, m)).
Proof. intros. split; auto. Qed.
Lemma g_bind : forall {A B} i (x : out (A * L1)) (y : out (A * L2)) (k : A * L1 -> out (B * L1)) (k' : A * L2 -> out (B * L2)),
  so i x y -> (forall a l m, R i l m -> so i (k (a, l)) (k' (a, m))) -> so i (bind x k) (bind y k').
Proof. intros A B i [[a l]|w] [[b m]|w'] k k' H K; cbn in *; try tauto. destruct H as [<- Q]. auto. Qed.
Lemma g_bindl : forall {B} i (x : out L1) (y : out L2) (k : L1 -> out (B * L1)) (k' : L2 -> out (B * L2)),
  sl i x y -> (forall l m, R i l m -> so i (k l) (k' m)) -> so i (bind x k) (bind y k').
Proof. intros B i [l|w] [m|w'] k k' H K; cbn in *; try tauto. auto. Qed.
Lemma g_lbind : forall {A} i (x : out (A * L1)) (y : out (A * L2)) (k : A * L1 -> out L1) (k' : A * L2 -> out L2),
  so i x y -> (forall a l m, R i l m -> sl i (k (a, l)) (k' (a, m))) -> sl i (bind x k) (bind y k').
Proof. intros A i [[a l]|w] [[b m]|w'] k k' H K; cbn in *; try tauto. destruct H as [<- Q]. auto. Qed.
Lemma g_lbindl : forall i (x : out L1) (y : out L2) (k : L1 -> out L1) (k' : L2 -> out L2),
  sl i x y -> (forall l m, R i l m -> sl i (k l) (k' m)) -> sl i (bind x k) (bind y k').
Proof. intros i [l|w] [m|w'] k k' H K; cbn in *; try tauto. auto. Qed.
Lemma w_ret : forall {A} i (a : option A) l m, R i l m -> sw i (Ok (a, l)) (Ok (a, m)).
Proof. intros. split; auto. Qed.
Lemma w_none : forall {A} i l m, sw (A := A) i (Ok (None, l)) (Ok (None, m)).
Proof. intros. split; congruence. Qed.
Lemma w_bind : forall {A B} i (x : out (A * L1)) (y : out (A * L2)) (k : A * L1 -> out (option B * L1)) (k' : A * L2 -> out (option B * L2)),
  so i x y -> (forall a l m, R i l m -> sw i (k (a, l)) (k' (a, m))) -> sw i (bind x k) (bind y k').
Proof. intros A B i [[a l]|w] [[b m]|w'] k k' H K; cbn in *; try tauto. destruct H as [<- Q]. auto. Qed.
Lemma w_bindl : forall {B} i (x : out L1) (y : out L2) (k : L1 -> out (option B * L1)) (k' : L2 -> out (option B * L2)),
  sl i x y -> (forall l m, R i l m -> sw i (k l) (k' m)) -> sw i (bind x k) (bind y k').
Proof. intros B i [l|w] [m|w'] k k' H K; cbn in *; try tauto. auto. Qed.
Lemma g_bindj : forall {A B} i j (x : out (A * L1)) (y : out (A * L2)) (k : A * L1 -> out (B * L1)) (k' : A * L2 -> out (B * L2)),
  so j x y -> (forall a l m, R j l m -> so i (k (a, l)) (k' (a, m))) -> so i (bind x k) (bind y k').
Proof. intros A B i j [[a l]|w] [[b m]|w'] k k' H K; cbn in *; try tauto. destruct H as [<- Q]. auto. Qed.
Lemma w_bindj : forall {B} i j (x : out L1) (y : out L2) (k : L1 -> out (option B * L1)) (k' : L2 -> out (option B * L2)),
  sl j x y -> (forall l m, R j l m -> sw i (k l) (k' m)) -> sw i (bind x k) (bind y k').
Proof. intros B i j [l|w] [m|w'] k k' H K; cbn in *; try tauto. auto. Qed.
Lemma w_bindw : forall {A B} i j (x : out (option A * L1)) (y : out (option A * L2)) (k : option A * L1 -> out (option B * L1)) (k' : option A * L2 -> out (option B * L2)),
  sw j x y -> (forall a l m, R j l m -> sw i (k (Some a, l)) (k' (Some a, m))) -> (forall l m, sw i (k (None, l)) (k' (None, m))) -> sw i (bind x k) (bind y k').
Proof. intros A B i j [[[a|] l]|w] [[b m]|w'] k k' H K1 K2; cbn in *; try tauto; destruct H as [<- Q]; auto. apply K1, Q. discriminate. Qed.
Lemma w_so : forall {A} i (x : out (option A * L1)) (y : out (option A * L2)), so i x y -> sw i x y.
Proof. intros A i [[a l]|w] [[b m]|w'] H; cbn in *; try tauto. Qed.

Ltac sim1 := first
  [ apply g_ret | apply H_is; [reflexivity|] | apply H_char | apply H_adv | assumption
  | apply g_bind; [|intros ? ? ? ?] | apply g_bindl; [|intros ? ? ?] | apply g_lbind; [|intros ? ? ? ?] | apply g_lbindl; [|intros ? ? ?]
  | match goal with
    | |- so _ (Stop _) (Stop _) => reflexivity
    | |- sl _ (Stop _) (Stop _) => reflexivity
    | |- sl _ (Ok _) (Ok _) => cbn
    | Q : R _ ?l ?m |- context [o_col O1 ?l] => rewrite (H_col _ l m Q)
    | |- so _ (if ?b then _ else _) _ => destruct b
    | |- sl _ (if ?b then _ else _) _ => destruct b
    | |- so _ (match ?b with _ => _ end) _ => destruct b
    end ].
Lemma g_name : forall f i l m acc, R i l m -> so i (p_name O1 f l acc) (p_name O2 f m acc).
Proof. induction f as [|f IH]; intros i l m acc Q; [reflexivity|]. cbn [p_name]. repeat first [apply IH | sim1]. Qed.
Lemma g_literal : forall f i l m n acc, R i l m -> so i (p_literal O1 f l n acc) (p_literal O2 f m n acc).
Proof. induction f as [|f IH]; intros i l m n acc Q; [reflexivity|]. cbn [p_literal]. cbv zeta. repeat first [apply IH | sim1]. Qed.
Lemma g_blank : forall f i l m, R i l m -> sl i (p_blank O1 f l) (p_blank O2 f m).
Proof. induction f as [|f IH]; intros i l m Q; [reflexivity|]. cbn [p_blank]. repeat first [apply IH | sim1]. Qed.
Lemma g_lines : forall f i l m acc, R i l m -> so i (p_lines O1 f l acc) (p_lines O2 f m acc).
Proof. induction f as [|f IH]; intros i l m acc Q; [reflexivity|]. cbn [p_lines]. repeat first [apply IH | sim1]. Qed.
Lemma g_inline : forall f, (forall i l m acc, R i l m -> so i (p_args O1 f l acc) (p_args O2 f m acc)) /\
  (forall i l m ctx chars ds, R i l m -> so i (p_inline O1 f l ctx chars ds) (p_inline O2 f m ctx chars ds)).
Proof.
  induction f as [|f [IH1 IH2]]; split; intros; try reflexivity.
  - cbn [p_args]. repeat first [apply IH1 | apply IH2 | apply g_literal | sim1].
  - cbn [p_inline]. cbv zeta. repeat first [apply IH1 | apply IH2 | apply g_name | sim1].
Qed.
Ltac wim1 := first
  [ apply w_none | apply w_ret | assumption | apply H_out; assumption | apply H_in; assumption
  | match goal with
    | |- sw ?i (bind (if _ then bind (p_blank _ _ _) _ else _) _) _ => apply (w_bindw i i); [|intros ? ? ? ?|intros ? ?]
    | Q : R ?j ?l _ |- sw ?i (bind (p_block _ _ ?l _) _) _ => apply (w_bindw i j); [|intros ? ? ? ?|intros ? ?]
    | Q : R ?j ?l _ |- sw ?i (bind (p_command _ _ ?l _ _) _) _ => apply (w_bindw i j); [|intros ? ? ? ?|intros ? ?]
    | |- sw ?i (bind (p_blank _ _ (o_set _ _ _)) _) _ => apply (w_bindj i (S i)); [|intros ? ? ?]
    | |- so ?i (bind (p_lines _ _ (o_set _ _ _) _) _) _ => apply (g_bindj i (S i)); [|intros ? ? ? ?]
    | |- sw _ (Stop _) (Stop _) => reflexivity
    | |- sw _ (if ?b then _ else _) _ => destruct b
    | |- sw _ (match ?b with _ => _ end) _ => destruct b
    end
  | apply w_bind; [|intros ? ? ? ?] | apply w_bindl; [|intros ? ? ?] | sim1 ].
Lemma g_block : forall f, (forall i l m x acc, R i l m -> sw i (p_command O1 f l x acc) (p_command O2 f m x acc)) /\
  (forall i l m ds, R i l m -> sw i (p_block O1 f l ds) (p_block O2 f m ds)).
Proof.
  induction f as [|f [IH1 IH2]]; split; intros; try reflexivity.
  - cbn [p_command]. cbv zeta. fold (p_command O1) (p_block O1) (p_command O2) (p_block O2). repeat first [apply IH1 | apply IH2 | apply g_inline | apply g_lines | apply g_blank | wim1].
  - cbn [p_block]. cbv zeta. fold (p_command O1) (p_block O1) (p_command O2) (p_block O2). repeat first [apply IH1 | apply IH2 | apply g_inline | apply g_name | apply g_blank | wim1].
Qed.
End Sim.
