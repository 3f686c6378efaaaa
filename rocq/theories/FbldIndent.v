(** * Indented markup is read like the markup that is not. *)
From Coq Require Import ZArith String Ascii List Arith Lia Bool.
From Verif Require Import FbldModel FbldSpec FbldParse FbldLex FbldParseTot FbldParseSim2 FbldGrammar.
Import ListNotations.
Local Open Scope list_scope.
Notation length := List.length.
Notation bind := FbldModel.bind.

Section Indent.
Context (k : nat) (tl : text).
Hypothesis tail : forall j, k <= j -> fst (look j tl) = END.

(** [a] reads the markup by itself, [b] the same markup moved [k] columns, and more after it. *)
Record shifted (i : nat) (a b : alex) : Prop := {
  s_ind : a_ind a = i;
  s_indb : a_ind b = i + k;
  s_ok : nl_ok a;
  s_pos : (a_col a = 1 /\ a_col b = 1 /\ a_rest b = shift k true (a_rest a) ++ tl) \/
          (2 <= a_col a /\ a_col b = a_col a + k /\ a_rest b = shift k false (a_rest a) ++ tl /\ a_rest a <> []) }.

Lemma look_spaces : forall n j t, look (n + j) (repeat 32%Z n ++ t) = let (c, m) := look j t in (c, n + m).
Proof.
  induction n as [|n IH]; intros j t; cbn [Nat.add repeat app]; [destruct (look j t); reflexivity|]. cbn [look]. change (32 =? SP)%Z with true. cbv iota. rewrite IH. destruct (look j t). reflexivity.
Qed.
Definition ok_text (t : text) : Prop := ends t /\ ~ In END t.
Lemma ok_cons : forall c t, ok_text (c :: t) -> c <> END /\ ok_text t /\ (c <> NL -> t <> []).
Proof.
  intros c t [E N]. split; [intros ->; apply N; left; auto|]. split; [split|].
  - destruct t; [left; auto|]. apply (ends_app [c]); [exact E|discriminate].
  - intros I. apply N. right. auto.
  - intros C ->. destruct E as [E|[[|x [|y u]] E]]; [discriminate|injection E as E; congruence|discriminate|discriminate].
Qed.
(** Mid line. *)
Lemma look_mid : forall j t, ok_text t -> t <> [] -> look j (shift k false t ++ tl) = look j t.
Proof.
  induction j as [|j IH]; intros [|c t] K N; try congruence; [reflexivity|]. cbn [shift andb app look]. destruct (ok_cons _ _ K) as [_ [K1 NN]].
  destruct (Z.eqb_spec c SP) as [->|]; [|reflexivity]. change (SP =? 10)%Z with false. rewrite IH; auto. apply NN. discriminate.
Qed.
(** At the start of a line. *)
Lemma look_bol : forall j c t, ok_text (c :: t) -> look (j + k) (shift k true (c :: t) ++ tl) = let (d, m) := look j (c :: t) in (d, if (c =? NL)%Z then m else k + m).
Proof.
  intros j c t K. cbn [shift andb]. destruct (Z.eqb_spec c 10) as [->|N]; cbn [negb].
  - cbn [app]. change (10 =? NL)%Z with true. cbv iota. destruct j as [|j]; [destruct k|]; reflexivity.
  - apply Z.eqb_neq in N. change (c =? NL)%Z with (c =? 10)%Z. rewrite N, <- app_assoc, Nat.add_comm, look_spaces.
    replace (((c :: shift k false t) ++ tl)) with (shift k false (c :: t) ++ tl) by (cbn [shift andb app]; rewrite N; reflexivity). rewrite look_mid by (auto; discriminate). reflexivity.
Qed.
(** What is left after the character. *)
Lemma rest_mid : forall j t c n, ok_text t -> t <> [] -> look j t = (c, n) -> c <> END ->
  skipn (S n) (shift k false t ++ tl) = shift k (c =? 10)%Z (skipn (S n) t) ++ tl /\ firstn (S n) (shift k false t ++ tl) = firstn (S n) t.
Proof.
  induction j as [|j IH]; intros [|x t] c n K N H E; try congruence; cbn [look] in H.
  - injection H as <- <-. cbn. auto.
  - destruct (ok_cons _ _ K) as [_ [K1 NN]]. destruct (Z.eqb_spec x SP) as [->|].
    + destruct (look j t) as [d m] eqn:LK. injection H as <- <-. specialize (NN ltac:(discriminate)). destruct (IH t d m K1 NN LK E) as [A B]. cbn [shift andb app]. change (SP =? 10)%Z with false.
      split; [exact A|]. change (SP :: firstn (S m) (shift k false t ++ tl) = SP :: firstn (S m) t). rewrite B. reflexivity.
    + destruct (Z.eqb_spec x NL) as [->|]; [|congruence]. injection H as <- <-. cbn. auto.
Qed.
Lemma skipn_more : forall {A} (u v : list A) n, skipn (length u + n) (u ++ v) = skipn n v.
Proof. intros A. induction u as [|x u IH]; intros v n; auto. apply IH. Qed.
Lemma firstn_more : forall {A} (u v : list A) n, firstn (length u + n) (u ++ v) = u ++ firstn n v.
Proof. intros A. induction u as [|x u IH]; intros v n; auto. cbn. f_equal. apply IH. Qed.
Lemma rest_bol : forall j x t c n, ok_text (x :: t) -> look j (x :: t) = (c, n) -> c <> END ->
  let n' := if (x =? NL)%Z then n else k + n in
  skipn (S n') (shift k true (x :: t) ++ tl) = shift k (c =? 10)%Z (skipn (S n) (x :: t)) ++ tl /\ firstn (S n') (shift k true (x :: t) ++ tl) = (if (x =? NL)%Z then [] else repeat 32%Z k) ++ firstn (S n) (x :: t).
Proof.
  intros j x t c n K H E. cbv zeta. destruct (Z.eqb_spec x NL) as [->|N].
  - assert (Q : c = NL /\ n = 0) by (destruct j; cbn in H; injection H as <- <-; auto). destruct Q as [-> ->]. cbn. auto.
  - assert (Q : shift k true (x :: t) ++ tl = repeat 32%Z k ++ shift k false (x :: t) ++ tl). { cbn [shift andb]. replace (x =? 10)%Z with false by (symmetry; apply Z.eqb_neq; exact N). cbn [negb]. rewrite <- app_assoc. reflexivity. }
    rewrite Q. replace (S (k + n)) with (length (repeat 32%Z k) + S n) by (rewrite repeat_length; lia). rewrite skipn_more, firstn_more. destruct (rest_mid j (x :: t) c n K ltac:(discriminate) H E) as [A B]. rewrite A, B. auto.
Qed.
Lemma columns_spaces_eq : forall n c t, columns c (repeat 32%Z n ++ t) = columns (c + n) t.
Proof. induction n as [|n IH]; intros c t; cbn [repeat app]; [rewrite Nat.add_0_r; auto|]. change (columns c (32%Z :: ?u)) with (columns (S c) u). change (columns (S c) (repeat 32%Z n ++ t) = columns (c + S n) t). rewrite IH. f_equal. lia. Qed.
(** The columns of spaces and a character. *)
Lemma look_cols : forall j t c n col, look j t = (c, n) -> c <> END -> columns col (firstn (S n) t) = if (c =? NL)%Z then 1 else S (col + n).
Proof.
  induction j as [|j IH]; intros [|x t] c n col H E; cbn [look] in H; try congruence.
  - injection H as <- <-. change (columns col (firstn 1 (x :: t))) with (if (x =? NL)%Z then 1 else S col). rewrite Nat.add_0_r. reflexivity.
  - destruct (Z.eqb_spec x SP) as [->|].
    + destruct (look j t) as [d m] eqn:LK. injection H as <- <-. change (columns col (firstn (S (S m)) (SP :: t))) with (columns (S col) (firstn (S m) t)). rewrite (IH t d m (S col) LK E). destruct (d =? NL)%Z; auto. lia.
    + destruct (Z.eqb_spec x NL) as [->|]; [|congruence]. injection H as <- <-. reflexivity.
Qed.

Lemma sh_peek : forall i a b, shifted i a b -> fst (peek b) = fst (peek a).
Proof.
  intros i a b [I J K P]. unfold peek. destruct P as [[C [D E]]|[C [D [E N]]]]; rewrite I, J, E.
  - rewrite C, D. replace (i + k + 1 - 1) with (i + k) by lia. replace (i + 1 - 1) with i by lia. destruct (a_rest a) as [|c t] eqn:R.
    + cbn [shift app]. rewrite tail by lia. destruct i; reflexivity.
    + rewrite look_bol; [destruct (look i (c :: t)); reflexivity|]. destruct K as [K1 K2]. rewrite R in *. split; auto.
  - rewrite D. replace (i + k + 1 - (a_col a + k)) with (i + 1 - a_col a) by lia. rewrite look_mid; auto.
Qed.
Lemma sh_next : forall i a b, shifted i a b -> fst (peek a) <> END -> shifted i (a_next a) (a_next b) /\
  (fst (peek a) <> NL -> skipn (S (snd (peek b))) (a_rest b) = shift k false (skipn (S (snd (peek a))) (a_rest a)) ++ tl /\ skipn (S (snd (peek a))) (a_rest a) <> []).
Proof.
  intros i a b SH NE. pose proof (sh_peek i a b SH) as PK. destruct SH as [I J K P]. destruct (adv_ok a K NE) as [_ [K' [_ [I' M']]]].
  unfold a_next in *. destruct (peek a) as [c n] eqn:PA. destruct (peek b) as [c' n'] eqn:PB. cbn [fst snd] in *. subst c'. cbn [a_rest a_col a_ind] in *.
  unfold peek in PA, PB. assert (Q : columns (a_col a) (firstn (S n) (a_rest a)) = if (c =? NL)%Z then 1 else S (a_col a + n)) by (eapply look_cols; eauto).
  assert (Z1 : skipn (S n') (a_rest b) = shift k (c =? 10)%Z (skipn (S n) (a_rest a)) ++ tl /\ columns (a_col b) (firstn (S n') (a_rest b)) = if (c =? NL)%Z then 1 else S (a_col a + n) + k).
  { destruct P as [[C [D E]]|[C [D [E N]]]]; rewrite E in *.
    - rewrite D, J in PB. rewrite C, I in PA. replace (i + 1 - 1) with i in PA by lia. replace (i + k + 1 - 1) with (i + k) in PB by lia. destruct (a_rest a) as [|x t] eqn:R; [destruct i; cbn in PA; congruence|].
      assert (OK : ok_text (x :: t)) by (destruct K as [K1 K2]; rewrite R in *; split; auto). rewrite look_bol, PA in PB by exact OK. injection PB as <-. destruct (rest_bol i x t c n OK PA NE) as [A B]. rewrite A, B. split; auto.
      rewrite D. destruct (Z.eqb_spec x NL) as [->|NX].
      + assert (W : c = NL /\ n = 0) by (destruct i; cbn in PA; injection PA as <- <-; auto). destruct W as [-> ->]. reflexivity.
      + rewrite columns_spaces_eq. rewrite (look_cols _ _ _ _ _ PA NE). rewrite C. destruct (c =? NL)%Z; auto. lia.
    - rewrite D, J in PB. replace (i + k + 1 - (a_col a + k)) with (i + 1 - a_col a) in PB by lia. rewrite I in PA. rewrite look_mid, PA in PB by (auto; exact K). injection PB as <-.
      destruct (rest_mid _ _ c n K N PA NE) as [A B]. rewrite A, B. split; auto. rewrite (look_cols _ _ _ _ _ PA NE), D. destruct (c =? NL)%Z; auto. lia. }
  destruct Z1 as [Z1 Z2]. split.
  - constructor; cbn [a_rest a_col a_ind]; auto. rewrite Z1, Z2, Q. change (c =? 10)%Z with (c =? NL)%Z. destruct (Z.eqb_spec c NL) as [->|N].
    + left. auto.
    + right. destruct (M' N) as [_ M]. cbn [a_rest] in M. split; [|split; [|split]]; auto. destruct P as [[C _]|[C _]]; rewrite C in *; lia.
  - intros N. rewrite Z1. replace (c =? 10)%Z with false by (symmetry; apply Z.eqb_neq; exact N). split; auto. apply (M' N).
Qed.
Lemma prefix_shift : forall r t, ok_text t -> t <> [] -> token r = true -> prefix r (shift k false t ++ tl) = prefix r t.
Proof.
  induction r as [|x r IH]; intros [|c t] K N T; try congruence; [discriminate|]. cbn [shift andb app prefix]. destruct (Z.eqb_spec x c) as [->|]; [|reflexivity]. cbn [andb].
  destruct r as [|y r]; [reflexivity|]. cbn in T. apply andb_prop in T. destruct T as [T1 T2]. apply andb_prop in T1. destruct T1 as [T1 _]. destruct (ok_cons _ _ K) as [_ [K1 NN]].
  assert (NC : c <> NL) by (intros ->; discriminate). replace (c =? 10)%Z with false by (symmetry; apply Z.eqb_neq; exact NC). apply IH; auto.
Qed.
Lemma sh_is : forall i a b s, shifted i a b -> token s = true -> a_isb b s = a_isb a s.
Proof.
  intros i a b [|x r] SH T; [discriminate|]. cbn [a_isb]. pose proof (sh_peek i a b SH) as PK. pose proof (sh_next i a b SH) as NX. destruct (peek a) as [c n]. destruct (peek b) as [c' n']. cbn [fst snd] in *. subst c'.
  destruct (Z.eqb_spec c END) as [->|NE]; [reflexivity|]. cbn [negb andb]. destruct (Z.eqb_spec x c) as [->|]; [|reflexivity]. cbn [andb]. specialize (NX NE). destruct NX as [SN NX].
  destruct r as [|y r]; [reflexivity|]. cbn in T. apply andb_prop in T. destruct T as [T1 T2]. apply andb_prop in T1. destruct T1 as [T1 _].
  assert (NC : c <> NL) by (intros ->; discriminate). destruct (NX NC) as [A B]. rewrite A. apply prefix_shift; auto.
  destruct SH as [_ _ K _]. destruct K as [K1 K2]. split.
  - eapply ends_app; [rewrite firstn_skipn; exact K1|exact B].
  - intros I. apply K2. rewrite <- (firstn_skipn (S n) (a_rest a)). apply in_or_app. auto.
Qed.
Lemma sh_sim : forall f i a b ds, shifted i a b -> sw shifted i (p_block a_ops f a ds) (p_block a_ops f b ds).
Proof.
  intros f. eapply (proj2 (g_block a_ops a_ops shifted _ _ _ _ _ _ f)).
  Unshelve.
  - intros i l m s T SH. split; auto. cbn. symmetry. eapply sh_is; eauto.
  - intros i l m SH. split; auto. cbn. symmetry. eapply sh_peek; eauto.
  - intros i l m SH. cbn [o_adv a_ops]. unfold a_advance. rewrite (sh_peek i l m SH). destruct (Z.eqb_spec (fst (peek l)) END); cbn; auto. apply sh_next; auto.
  - intros i l m [I J K P]. constructor; cbn; auto; lia.
  - intros i l m [I J K P]. constructor; cbn; auto; lia.
  - intros i l m [I J K P]. cbn. destruct P as [[C [D _]]|[C [D _]]]; rewrite D; [rewrite C; auto|]. destruct (Nat.eqb_spec (a_col l) 1), (Nat.eqb_spec (a_col l + k) 1); auto; lia.
Qed.
Lemma sh_blank : forall f i a b, shifted i a b -> sl shifted i (p_blank a_ops f a) (p_blank a_ops f b).
Proof.
  intros f i a b SH. eapply g_blank; eauto.
  - intros i' l m s T SH'. split; auto. cbn. symmetry. eapply sh_is; eauto.
  - intros i' l m SH'. cbn [o_adv a_ops]. unfold a_advance. rewrite (sh_peek i' l m SH'). destruct (Z.eqb_spec (fst (peek l)) END); cbn; auto. apply sh_next; auto.
Qed.
Lemma sh_lines : forall f i a b acc, shifted i a b -> so shifted i (p_lines a_ops f a acc) (p_lines a_ops f b acc).
Proof.
  intros f i a b acc SH. eapply g_lines; eauto.
  - intros i' l m SH'. split; auto. cbn. symmetry. eapply sh_peek; eauto.
  - intros i' l m SH'. cbn [o_adv a_ops]. unfold a_advance. rewrite (sh_peek i' l m SH'). destruct (Z.eqb_spec (fst (peek l)) END); cbn; auto. apply sh_next; auto.
Qed.
End Indent.
