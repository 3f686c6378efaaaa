(** * The fbld evaluator: memory safety, and its operations on documents. *)
From Coq Require Import ZArith String Ascii List Arith Lia Bool.
From Verif Require Import FbldModel FbldSpec FbldMem FbldSafe FbldOps.
Import ListNotations.
Local Open Scope list_scope.
Notation length := List.length.
Notation bind := FbldModel.bind.

(** ** What exact reference counts are *)

(** All the markups that others refer to: the arguments and elements of markups, and the bodies
    of environment entries. *)
Definition uses (h : heap) : list (option nat) :=
  flat_map (fun b => match mh h b with Some n => n_kids n | None => [] end) (seq 0 (nm h)) ++
  flat_map (fun e => match eh h e with Some n => [e_body n] | None => [] end) (seq 0 (ne h)).
Definition euses (h : heap) : list (option nat) :=
  flat_map (fun e => match eh h e with Some n => [e_next n] | None => [] end) (seq 0 (ne h)).
Definition opt_dec : forall p q : option nat, {p = q} + {p <> q}.
Proof. decide equality. apply Nat.eq_dec. Defined.
Definition uses_of (l : list (option nat)) (a : nat) : nat := count_occ opt_dec l (Some a).
(** The count of every markup is the number of uses it has, [r] of them by callers; what is not
    allocated is not used.  The same for environment entries.  An entry refers to older ones only. *)
Record exact (h : heap) (r re : nat -> nat) : Prop := {
  x_bound : forall a, nm h <= a -> mh h a = None;
  x_ebound : forall e, ne h <= e -> eh h e = None;
  x_live : forall a n, mh h a = Some n -> 0 < n_rc n /\ n_rc n = r a + uses_of (uses h) a;
  x_dead : forall a, mh h a = None -> r a = 0 /\ uses_of (uses h) a = 0;
  x_elive : forall e n, eh h e = Some n -> 0 < e_rc n /\ e_rc n = re e + uses_of (euses h) e;
  x_edead : forall e, eh h e = None -> re e = 0 /\ uses_of (euses h) e = 0;
  x_next : forall e n e', eh h e = Some n -> e_next n = Some e' -> e' < e }.

Lemma uses_cnt : forall l a, uses_of l a = cnt a l.
Proof.
  intros l a. unfold uses_of. induction l as [|p l IH]; cbn; auto. rewrite IH. destruct (opt_dec p (Some a)) as [->|N]; [rewrite one_same; lia|].
  destruct p as [b|]; auto. cbn. destruct (Nat.eqb_spec b a) as [Eb|Nb]; [subst; congruence|lia].
Qed.
Lemma cnt_seq : forall a n (F : nat -> list (option nat)), cnt a (flat_map F (seq 0 n)) = sum n (fun b => cnt a (F b)).
Proof.
  intros a n F. induction n as [|n IH]; auto. rewrite seq_S, flat_map_app, cnt_app, IH. cbn. rewrite app_nil_r. lia.
Qed.
Lemma uses_mref : forall h a, uses_of (uses h) a = mref h a.
Proof.
  intros h a. rewrite uses_cnt. unfold uses, mref. rewrite cnt_app, !cnt_seq. f_equal. apply sum_ext. intros k _. unfold body_of. destruct (eh h k); cbn; lia.
Qed.
Lemma euses_eref : forall h e, uses_of (euses h) e = eref h e.
Proof. intros h e. rewrite uses_cnt. unfold euses, eref. rewrite cnt_seq. apply sum_ext. intros k _. unfold next_of. destruct (eh h k); cbn; lia. Qed.
Lemma exact_inv : forall h r re, exact h r re <-> inv h r re.
Proof.
  intros h r re. split; intros H.
  - destruct H as [A0 B0 A B C D E]. constructor.
    + intros a n H. destruct (A _ _ H) as [L R]. rewrite uses_mref in R. repeat split; auto. destruct (le_lt_dec (nm h) a) as [G|G]; auto. rewrite A0 in H by auto. discriminate.
    + intros a H. destruct (B _ H) as [L R]. rewrite uses_mref in R. lia.
    + intros a n H. destruct (C _ _ H) as [L R]. rewrite euses_eref in R. repeat split; auto. destruct (le_lt_dec (ne h) a) as [G|G]; auto. rewrite B0 in H by auto. discriminate.
    + intros a H. destruct (D _ H) as [L R]. rewrite euses_eref in R. lia.
    + exact E.
  - destruct H as [A B C D E]. constructor.
    + intros a L. destruct (mh h a) as [n|] eqn:H; auto. destruct (A _ _ H). lia.
    + intros a L. destruct (eh h a) as [n|] eqn:H; auto. destruct (C _ _ H). lia.
    + intros a n H. rewrite uses_mref. destruct (A _ _ H). lia.
    + intros a H. rewrite uses_mref. specialize (B _ H). lia.
    + intros a n H. rewrite euses_eref. destruct (C _ _ H). lia.
    + intros a H. rewrite euses_eref. specialize (D _ H). lia.
    + exact E.
Qed.

(** ** C53: the evaluator is memory safe *)
Definition none : nat -> nat := fun _ => 0.
Definition plus (p : option nat) (r : nat -> nat) : nat -> nat := fun a => match p with Some b => if b =? a then S (r a) else r a | None => r a end.
Lemma plus_add : forall p r a, plus p r a = add p r a.
Proof. intros [b|] r a; unfold plus, add; cbn; auto. destruct (b =? a); auto. Qed.

Lemma no_envs : forall h r, inv h r none -> forall e, eh h e = None.
Proof.
  intros h r I. assert (P : forall k e, ne h - e <= k -> eh h e = None).
  { induction k as [|k IH]; intros e L; destruct (eh h e) as [n|] eqn:H; auto; destruct (i_e _ _ _ I _ _ H) as [A [B C]]; [lia|].
    rewrite C in B. unfold none in B. cbn in B. apply sum_pos in B. destruct B as [b [Lb K]]. unfold next_of in K. destruct (eh h b) as [n'|] eqn:Hb; [|cbn in K; lia].
    apply one_pos in K. pose proof (i_next _ _ _ I _ _ _ Hb K) as Q. rewrite IH in Hb by lia. discriminate. }
  intros e. eapply P. apply le_n.
Qed.

(** FbldEval, on any heap with exact reference counts and a live markup, in any number of
    commands: it touches no memory that has been freed and writes past no buffer.  If it ends
    without the two failures of C54, all counts are exact again with one more reference, the
    result; no environment entry is left if the caller had none; and every document a caller
    refers to is what it was. *)
Theorem eval_memory_safe : forall f n h m r re, exact h r re -> (exists x, mh h m = Some x) ->
  match fbld_eval f n h (Some m) with
  | Ok (h', p) =>
    exact h' (plus p r) re /\ ((forall e, re e = 0) -> forall e, eh h' e = None) /\
    (forall q d, 0 < r q -> holds h (Some q) d -> holds h' (Some q) d)
  | Stop w => w = Timeout \/ w = NullDeref \/ w = AssertFail
  end.
Proof.
  intros f n h m r re I L. apply exact_inv in I. unfold fbld_eval.
  assert (FIN : forall s, wf r re s [] [] [] -> grow h (hp s) -> stack s = [] -> inv (hp s) (add (res s) r) re).
  { intros s W _ E. eapply inv_ext; [exact (w_inv _ _ _ _ _ _ W)| |]; intros a; unfold mroots, eroots, add; rewrite E; cbn; lia. }
  assert (DONE : forall h' p, grow h h' -> inv h' (add p r) re -> exact h' (plus p r) re /\ ((forall e, re e = 0) -> forall e, eh h' e = None) /\ (forall q d, 0 < r q -> holds h (Some q) d -> holds h' (Some q) d)).
  { intros h' p G J. split; [apply exact_inv; eapply inv_ext; [exact J| |]; auto; intros; symmetry; apply plus_add|]. split.
    - intros Z. eapply no_envs. eapply inv_ext; [exact J|intros; reflexivity|]. intros e. unfold none. auto.
    - intros q d Lq H. eapply holds_grow; [exact H|exact G|exact I|exact J|]. eapply live_r; [exact J|]. unfold add. lia. }
  pose proof (start_ok r re h (Some m) I L) as S0. destruct (start h (Some m)) as [s0|w]; cbn [bind post] in *; [|destruct S0].
  destruct S0 as [W0 [G0 [E0 [K0 [R0 A0]]]]]. pose proof (run_ok r re f n s0 W0) as RUN. destruct (run f n s0) as [s|w]; cbn [bind post] in *; [|exact RUN].
  destruct RUN as [W [[G _] E]]. assert (GG : grow h (hp s)) by (eapply grow_trans; eauto). pose proof (FIN s W GG E) as J.
  destruct (err s).
  - pose proof (free_ok f (res s) (hp s) r re J) as FR. destruct (free f (hp s) (res s)) as [h1|w]; cbn [bind post] in *; [|left; exact FR].
    destruct FR as [J1 [B1 _]]. apply DONE; [eapply grow_trans; [exact GG|apply sub_grow; exact B1]|]. eapply inv_ext; [exact J1| |]; auto.
  - apply DONE; auto.
Qed.

(** Documents made by the parser meet this. *)
Lemma alloc_ok : forall d h r re, inv h r re -> let (h', a) := alloc h d in inv h' (add (Some a) r) re /\ keep h h' /\ holds h' (Some a) d.
Proof.
  intros d.
  assert (ALL : forall ds, Forall (fun d => forall h r re, inv h r re -> let (h', a) := alloc h d in inv h' (add (Some a) r) re /\ keep h h' /\ holds h' (Some a) d) ds ->
    forall h r re, inv h r re ->
    let (h', ks) := (fix all (h : heap) (l : list doc) : heap * list (option nat) :=
       match l with [] => (h, []) | x :: r => let '(h1, a) := alloc h x in let '(h2, ks) := all h1 r in (h2, Some a :: ks) end) h ds in
    inv h' (adds ks r) re /\ keep h h' /\ Forall2 (holds h') ks ds).
  { intros ds F. induction F as [|x ds Hx F IH]; intros h r re I.
    - split; [eapply inv_ext; [exact I| |]; auto|]. split; [apply keep_refl|constructor].
    - specialize (Hx h r re I). destruct (alloc h x) as [h1 a]. destruct Hx as [I1 [K1 H1]]. specialize (IH h1 _ _ I1).
      destruct ((fix all (h : heap) (l : list doc) : heap * list (option nat) :=
       match l with [] => (h, []) | x :: r => let '(h1, a) := alloc h x in let '(h2, ks) := all h1 r in (h2, Some a :: ks) end) h1 ds) as [h2 ks].
      destruct IH as [I2 [K2 H2]]. split; [eapply inv_ext; [exact I2| |]; auto; intros b; unfold adds, add; cbn [cnt]; lia|].
      split; [eapply keep_trans; eauto|]. constructor; [eapply holds_keep; eauto|exact H2]. }
  induction d as [t|x ds IH|ds IH] using doc_ind2; intros h r re I; cbn [alloc].
  - unfold new_plain. rewrite (surjective_pairing (new_node h _)). set (x := mk_node TPlain t [] 1).
    split; [apply (new_node_ok h r re x); auto|]. split; [eapply keep_new; exact I|].
    eapply holds_plain with (ks := []) (r := 1). cbn. unfold upd. rewrite Nat.eqb_refl. reflexivity.
  - specialize (ALL ds IH h r re I).
    destruct ((fix all (h : heap) (l : list doc) : heap * list (option nat) :=
       match l with [] => (h, []) | x :: r => let '(h1, a) := alloc h x in let '(h2, ks) := all h1 r in (h2, Some a :: ks) end) h ds) as [h2 ks].
    destruct ALL as [I1 [K1 H1]]. rewrite (surjective_pairing (new_node h2 _)). set (y := mk_node TCommand x ks 1).
    split; [apply (new_node_ok h2 r re y); auto|]. split; [eapply keep_trans; [exact K1|eapply keep_new; exact I1]|].
    eapply holds_command with (ks := ks) (r := 1); [cbn; unfold upd; rewrite Nat.eqb_refl; reflexivity|]. eapply holds_all_keep; [eapply keep_new; exact I1|exact H1].
  - specialize (ALL ds IH h r re I).
    destruct ((fix all (h : heap) (l : list doc) : heap * list (option nat) :=
       match l with [] => (h, []) | x :: r => let '(h1, a) := alloc h x in let '(h2, ks) := all h1 r in (h2, Some a :: ks) end) h ds) as [h2 ks].
    destruct ALL as [I1 [K1 H1]]. rewrite (surjective_pairing (new_node h2 _)). set (y := mk_node TSequence [] ks 1).
    split; [apply (new_node_ok h2 r re y); auto|]. split; [eapply keep_trans; [exact K1|eapply keep_new; exact I1]|].
    eapply holds_sequence with (ks := ks) (r := 1); [cbn; unfold upd; rewrite Nat.eqb_refl; reflexivity|]. eapply holds_all_keep; [eapply keep_new; exact I1|exact H1].
Qed.
Lemma sum_zero : forall n, sum n (fun _ => 0) = 0.
Proof. intros n. induction n; auto. Qed.
Lemma no_memory_ok : inv no_memory none none.
Proof. constructor; cbn; intros; try discriminate; auto. Qed.

(** Any document, from an empty heap: the document given stays as it is until the caller frees
    it, and apart from it and the result there are no references. *)
Theorem eval_document_safe : forall f n d, let (h, a) := alloc no_memory d in
  match fbld_eval f n h (Some a) with
  | Ok (h', p) => exact h' (plus p (plus (Some a) none)) none /\ (forall e, eh h' e = None) /\ holds h' (Some a) d
  | Stop w => w = Timeout \/ w = NullDeref \/ w = AssertFail
  end.
Proof.
  intros f n d. pose proof (alloc_ok d no_memory none none no_memory_ok) as H. destruct (alloc no_memory d) as [h a]. destruct H as [I [_ H]].
  assert (X : exact h (plus (Some a) none) none) by (apply exact_inv; eapply inv_ext; [exact I| |]; auto; intros; symmetry; apply plus_add).
  assert (L : exists x, mh h a = Some x) by (apply holds_live in H; exact H).
  pose proof (eval_memory_safe f n h a _ _ X L) as P. destruct (fbld_eval f n h (Some a)) as [[h' p]|w]; auto.
  destruct P as [P1 [P2 P3]]. split; auto. split; [apply P2; auto|]. apply P3; auto. unfold plus. rewrite Nat.eqb_refl. lia.
Qed.

(** ** C54: the operations on documents *)

(** HeadOf and @head: the first character, NUL at the end; a command before it is an error. *)
Theorem head_first : forall h p d, holds h p d -> exists f0, forall f, f0 <= f ->
  head_of f h p = Ok (match items d with [] => Some None | Char c :: _ => Some (Some c) | Cmd _ :: _ => None end).
Proof. intros h p d H. destruct (head_of_tot d h p H) as [x [f0 [A ->]]]. exists f0. exact A. Qed.

(** TailOf: a document of the remaining characters; the counts stay exact. *)
Theorem tail_rest : forall h p d r re, exact h r re -> holds h p d -> exists f0 h' x, (forall f, f0 <= f -> tail_of f h p = Ok (h', x)) /\
  match items d with
  | [] => x = Some None /\ h' = h
  | Cmd _ :: _ => x = None /\ h' = h
  | Char _ :: l => exists q w, x = Some (Some q) /\ holds h' (Some q) w /\ items w = l /\ drop d = Some w /\ exact h' (plus (Some q) r) re
  end.
Proof.
  intros h p d r re X H. apply exact_inv in X. destruct (tail_of_tot d h r re p X H) as [[h' x] [f0 [A T]]]. exists f0, h', x. split; auto.
  pose proof (tail_of_ok f0 h r re X p (holds_live _ _ _ H)) as P. rewrite (A f0 (le_n _)) in P. cbn [post fst snd] in P. unfold tails in T. cbn [fst snd] in T.
  destruct P as [_ [_ P]]. destruct (items d) as [|[c|y] l] eqn:E; cbn [head] in T.
  - rewrite T in P. auto.
  - destruct T as [q [w [-> [D Hw]]]]. exists q, w. split; auto. split; auto. destruct (drop_char _ _ _ E) as [w' [D' I']].
    split; [congruence|]. split; auto. apply exact_inv. eapply inv_ext; [exact P| |]; auto. intros. symmetry. apply plus_add.
  - rewrite T in P. auto.
Qed.

(** Eq: the strings are compared however they are cut into markups; a command before a
    difference is an error.  Both documents and all counts are as before. *)
Theorem eq_strings : forall h a b da db r re, exact h r re -> holds h a da -> holds h b db -> exists f0 h', (forall f, f0 <= f -> eq f h a b = Ok (h', same (items da) (items db))) /\ exact h' r re.
Proof.
  intros h a b da db r re X Ha Hb. apply exact_inv in X. destruct (eq_tot h a b da db r re X Ha Hb) as [[h' x] [f0 [A T]]]. cbn [snd] in T. subst x. exists f0, h'. split; auto.
  pose proof (eq_ok f0 h a b r re X (holds_live _ _ _ Ha) (holds_live _ _ _ Hb)) as P. rewrite (A f0 (le_n _)) in P. cbn [post fst snd] in P. apply exact_inv. tauto.
Qed.

(** MapPlain: the command [g] around each plain text and nothing else. *)
Theorem plain_applies : forall g h p d r re, exact h r re -> holds h p d -> exists f0 h' q, (forall f, f0 <= f -> map_plain f g h p = Ok (h', q)) /\ holds h' (Some q) (apply_plain g d) /\ exact h' (plus (Some q) r) re.
Proof.
  intros g h p d r re X H. apply exact_inv in X. destruct (map_plain_tot g d h r re p X H) as [[h' q] [f0 [A T]]]. exists f0, h', q. split; auto. split; auto.
  pose proof (map_plain_ok f0 g h r re X p (holds_live _ _ _ H)) as P. rewrite (A f0 (le_n _)) in P. cbn [post fst snd] in P. apply exact_inv.
  eapply inv_ext; [apply P| |]; auto. intros; symmetry; apply plus_add.
Qed.

(** FbldTextOfMarkup: all the text of a document without commands, and false with one. Only if
    its first two texts are empty the assertion of fbld/markup.c:159 fails. *)
Theorem text_of_document : forall h p d, holds h p d -> exists f0, forall f, f0 <= f ->
  text_of f h p = match pieces d with
                  | Some [] :: Some [] :: _ => Stop AssertFail
                  | l => Ok (if existsb (fun x => match x with None => true | Some _ => false end) l then None
                             else Some (flat_map (fun x => match x with None => [] | Some t => t end) l))
                  end.
Proof.
  assert (J : forall l, join l = if existsb (fun x => match x with None => true | Some _ => false end) l then None else Some (flat_map (fun x => match x with None => [] | Some t => t end) l)).
  { induction l as [|[t|] l IH]; cbn; auto. rewrite IH. destruct (existsb _ l); auto. }
  intros h p d H. pose proof (text_of_tot d h p H) as T. unfold string_of in T.
  assert (D : forall l, (match (match join l with Some t => Value t | None => Error end) with
     | Value t => tot (fun f => text_of f h p) (fun x => x = Some t)
     | Error => tot (fun f => text_of f h p) (fun x => x = None)
     | Assert => stops (fun f => text_of f h p) AssertFail
     | Deep => False end) -> exists f0, forall f, f0 <= f -> text_of f h p = Ok (join l)).
  { intros l Q. destruct (join l); destruct Q as [x [f0 [A ->]]]; exists f0; exact A. }
  destruct (pieces d) as [|[[|c t]|] [|[[|c2 t2]|] l]]; try (cbv zeta; rewrite <- J; apply D; exact T).
  exact T.
Qed.

Print Assumptions eval_memory_safe.
Print Assumptions eval_document_safe.
Print Assumptions tail_rest.
Print Assumptions eq_strings.
Print Assumptions plain_applies.
Print Assumptions text_of_document.
