(** * The parser of fbld documents: what a user may rely on. *)
From Coq Require Import ZArith String Ascii List Arith Lia Bool.
From Verif Require Import FbldModel FbldSpec FbldParse FbldLex FbldParseTot FbldParseMono FbldGrammar FbldRound FbldIndent FbldBlocks.
Import ListNotations.
Local Open Scope list_scope.
Notation length := List.length.
Notation bind := FbldModel.bind.

(** Every file is empty or ends with a new line, character 3 is not used, and the first line is not
    made of a single space. *)
Definition text_files (inputs : list text) : Prop :=
  Forall (fun t => t = [] \/ exists u, t = u ++ [10%Z]) inputs /\ ~ In 3%Z (concat inputs) /\ forall r, concat inputs <> 32%Z :: 10%Z :: r.

(** The limit [f] is on the number of steps of each loop; it is large enough if it is two more than
    the number of characters, and then no assertion fails. *)
Theorem parse_finishes : forall inputs, text_files inputs -> exists y, forall f, f >= length (concat inputs) + 2 -> fbld_parse f inputs = Ok y.
Proof.
  intros inputs [E [N S]]. assert (K : nl_ok (mk_a 1 0 (concat inputs))) by (split; [apply ends_concat; exact E|exact N]).
  destruct (parse_ops_ends (length (concat inputs) + 2) (mk_a 1 0 (concat inputs)) (le_n _) K) as [y H]. exists y. intros f Hf. rewrite (parse_one_text f inputs E N S).
  induction Hf as [|f Hf IH]; [exact H|]. destruct (mono_parse a_ops f (mk_a 1 0 (concat inputs))) as [M|M]; congruence.
Qed.
Theorem files_concatenate : forall f i1 i2, text_files i1 -> text_files i2 -> concat i1 = concat i2 -> fbld_parse f i1 = fbld_parse f i2.
Proof. intros f i1 i2 [E1 [N1 S1]] [E2 [N2 S2]] H. rewrite (parse_one_text f i1 E1 N1 S1), (parse_one_text f i2 E2 N2 S2), H. reflexivity. Qed.

Lemma parse_more : forall f g l y, parse_ops a_ops f l = Ok y -> f <= g -> parse_ops a_ops g l = Ok y.
Proof. intros f g l y H L. induction L as [|g L IH]; auto. destruct (mono_parse a_ops g l) as [M|M]; congruence. Qed.
Lemma parse_any : forall f l y, parse_ops a_ops f l = Ok y -> nl_ok l -> forall g, g >= size l + 2 -> parse_ops a_ops g l = Ok y.
Proof.
  intros f l y H K g G. destruct (parse_ops_ends g l G K) as [z Z]. rewrite Z. pose proof (parse_more _ (f + g) _ _ H ltac:(lia)) as A. pose proof (parse_more _ (f + g) _ _ Z ltac:(lia)) as B. congruence.
Qed.
Lemma no_space_nl : forall u, no_space u -> forall r, u <> 32%Z :: 10%Z :: r.
Proof. intros [|c u] H r E; [discriminate|]. injection E as -> _. apply H. reflexivity. Qed.

(** What is written is read. *)
Theorem written_is_read : forall ds s, w_doc ds s -> forall inputs, concat inputs = s -> Forall (fun t => t = [] \/ exists u, t = u ++ [10%Z]) inputs ->
  forall f, f >= length s + 2 -> fbld_parse f inputs = Ok (Some (Sequence ds)).
Proof.
  intros ds s W inputs C E f Hf. assert (K : nl_ok (mk_a 1 0 s)) by (split; [eapply w_doc_ends|eapply w_doc_noend]; eauto).
  rewrite (parse_one_text f inputs E); rewrite C; [|apply K|apply no_space_nl, (doc_start _ _ W)].
  destruct (r_doc _ _ W 1 (le_n _) []) as [c2 [s2 [C2 [[f0 H0] [c3 [C3 [f1 H1]]]]]]]. apply (parse_any (f0 + f1)); auto. unfold parse_ops. rewrite H0 by lia. cbn [bind]. rewrite H1 by lia. reflexivity.
Qed.
(** So a text is a way to write one document only. *)
Theorem writing_unambiguous : forall ds1 ds2 s, w_doc ds1 s -> w_doc ds2 s -> ds1 = ds2.
Proof.
  intros ds1 ds2 s W1 W2. assert (E : Forall (fun t : text => t = [] \/ exists u, t = u ++ [10%Z]) [s]) by (constructor; auto; eapply w_doc_ends; eauto).
  pose proof (written_is_read _ _ W1 [s] (app_nil_r s) E _ (le_n _)) as A. pose proof (written_is_read _ _ W2 [s] (app_nil_r s) E _ (le_n _)) as B. congruence.
Qed.

(** Any text [t], moved one column to the right and put after the line of a command, is one more
    argument of the command: what [t] is by itself, or an error. *)
Theorem block_argument_alone : forall x args s d sl t ds u y f, x <> [] -> Forall name_char x -> w_args args s -> w_same_line d sl ->
  text_files [t] -> starts_line t -> fbld_parse f [t] = Ok y -> w_doc ds u -> u = [] \/ starts_line u ->
  let text := 64%Z :: x ++ s ++ sl ++ 10%Z :: indented t ++ u in
  forall g, g >= length text + 2 -> fbld_parse g [text] = Ok (match y with Some a => Some (Sequence (Command x (args ++ d ++ [a]) :: ds)) | None => None end).
Proof.
  intros x args s d sl t ds u y f N F Wa Ws [E [NE NS]] ST H W Su text g G. cbn [concat] in *. rewrite app_nil_r in *. assert (Et : ends t) by (inversion E; auto).
  assert (Kt : nl_ok (mk_a 1 0 t)) by (split; auto). rewrite (parse_one_text f [t]) in H; cbn [concat]; rewrite ?app_nil_r; auto. cbn [concat] in H. rewrite app_nil_r in H.
  destruct (doc_start _ _ W) as [D1 [D2 D3]].
  assert (Kx : nl_ok (mk_a 1 0 text)).
  { pose proof (w_doc_noend _ _ W) as NU. pose proof (w_doc_ends _ _ W) as EU. split.
    - right. destruct (ends_more (indented t) u) as [v V]; auto. { destruct Et as [->|[w ->]]; [destruct ST|]. unfold indented. rewrite shift_last. eauto. }
      exists (64%Z :: x ++ s ++ sl ++ NL :: v). unfold text. cbn [a_rest]. rewrite V. cbn. rewrite <- !app_assoc. reflexivity.
    - pose proof (name_noend _ F) as A. pose proof (proj1 w_noend _ _ Wa) as B. pose proof (shift_noend 1 t true NE) as D. pose proof (proj1 (proj2 w_doc_noends) _ _ _ (e_line _ _ Ws)) as S'. rewrite in_app_iff in S'.
      unfold text, indented. cbn. rewrite !in_app_iff. cbn. rewrite in_app_iff. unfold END in *. intuition discriminate. }
  rewrite (parse_one_text g [text]); cbn [concat]; rewrite ?app_nil_r; [|constructor; [apply Kx|constructor]|apply Kx|intros r; discriminate].
  assert (P : exists f0, forall f, f >= f0 -> exists a1 a2, p_blank a_ops f (mk_a 1 0 t) = Ok a1 /\ p_block a_ops f a1 [] = Ok (y, a2)).
  { exists f. intros f' Hf. pose proof (parse_more _ f' _ _ H Hf) as Q. unfold parse_ops in Q. destruct (p_blank a_ops f' (mk_a 1 0 t)) as [a1|]; cbn [bind] in Q; [|discriminate].
    destruct (p_block a_ops f' a1 []) as [[z a2]|] eqn:B; cbn [bind] in Q; [|discriminate]. injection Q as ->. eauto. }
  assert (NN : no_name (s ++ sl ++ 10%Z :: indented t ++ u)).
  { apply round_no_name. eapply round_start; eauto. destruct Ws; cbn; auto. }
  pose proof (starts_no_nl u Su) as TL.
  assert (R1 : forall c, 1 <= c -> exists f0, forall f, f >= f0 -> exists l, p_command a_ops (S f) (mk_a c 0 (s ++ sl ++ NL :: indented t ++ u)) x [] =
    match y with Some a => Ok (Some (Command x (args ++ d ++ [a])), mk_a 1 0 u) | None => Ok (None, l) end).
  { intros c C. destruct (r_to_eol args s d sl (NL :: indented t ++ u) c Wa Ws ltac:(exists (indented t ++ u); left; reflexivity) C) as [c1 [C1 [f0 H0]]]. destruct (r_argument t u c1 y C1 Kt ST D1 TL P) as [f1 H1].
    exists (f0 + f1). intros f' Hf. destruct (H1 f' ltac:(lia)) as [l HL]. exists l. rewrite H0, HL by lia. destruct y as [a|]; auto. rewrite tail_stop by auto. cbn [app]. rewrite <- app_assoc. reflexivity. }
  destruct y as [a|].
  - assert (R : reads 1 text (Command x (args ++ d ++ [a]) :: ds)).
    { unfold text. apply r_step with (u := u); auto; [|intros; apply r_doc; auto]. intros c C. destruct (R1 c C) as [f0 H0]. exists 1. split; auto. exists (S f0). intros [|f'] Hf; [lia|]. destruct (H0 f' ltac:(lia)) as [l HL]. exact HL. }
    destruct (R []) as [c2 [s2 [C2 [[f0 H0] [c3 [C3 [f1 H1]]]]]]]. apply (parse_any (f0 + f1)); auto. unfold parse_ops. rewrite H0 by lia. cbn [bind]. rewrite H1 by lia. reflexivity.
  - destruct (adv0 1 64%Z (x ++ s ++ sl ++ 10%Z :: indented t ++ u) (le_n _) ltac:(discriminate)) as [c1 [C1 A]]. destruct (r_name x _ [] c1 F NN C1) as [c2 [C2 [f0 H0]]].
    destruct (R1 c2 C2) as [f1 H1]. apply (parse_any (S (S (f0 + f1)))); auto. unfold parse_ops.
    assert (B : p_blank a_ops (S (S (f0 + f1))) (mk_a 1 0 text) = Ok (mk_a 1 0 text)) by (cbn [p_blank]; ops; rewrite isb0 by (auto; noend); reflexivity). rewrite B. cbn [bind].
    assert (AA : a_isb (mk_a 1 0 text) (txt "@@") = false).
    { unfold text. rewrite isb0 by (auto; noend). destruct x as [|c x]; [congruence|]. inversion F as [|? ? Fy _]; subst. cbn [txt list_ascii_of_string map prefix app]. replace (Z.of_nat (nat_of_ascii "@") =? c)%Z with false; [apply andb_false_r|]. symmetry. apply Z.eqb_neq. change (Z.of_nat (nat_of_ascii "@")) with 64%Z. unfold name_char in Fy. lia. }
    destruct (H1 (f0 + f1) ltac:(lia)) as [l HL]. change NL with 10%Z in HL.
    remember (S (f0 + f1)) as h. cbn [p_block]. fold (p_command a_ops) (p_block a_ops). ops. unfold text at 1. rewrite peek0 by auto. change (64 =? END)%Z with false. cbv iota. rewrite AA. ops. unfold text. rewrite chars_isb by (auto; discriminate). change (Z.of_nat (nat_of_ascii "@") =? 64)%Z with true. cbv iota. rewrite A. cbn [bind].
    rewrite H0 by lia. cbn [bind app]. rewrite HL. reflexivity.
Qed.

(** ** Examples *)
(** [|] is a new line here. *)
Definition T (s : string) : text := map (fun c => if (c =? 124)%Z then 10%Z else c) (txt s).
Lemma names : forall x, forallb is_name_char x = true -> Forall name_char x.
Proof. intros x H. rewrite forallb_forall in H. apply Forall_forall. intros c I. apply name_dec. auto. Qed.
Ltac go_name := apply names; reflexivity.
Ltac go_char := first [apply w_raw; unfold plain_char; discriminate | apply w_newline | apply w_escape; auto].
Lemma raw_text : forall t, Forall (fun c => plain_char c /\ c <> 64%Z /\ c <> 92%Z /\ c <> 93%Z) t -> w_text t t.
Proof. intros t F. induction F as [|c t [A [B [C D]]] F IH]; [constructor|]. change (c :: t) with ([c] ++ t) at 2. constructor; auto. constructor; auto. Qed.
Ltac go_raw := apply raw_text; repeat constructor; unfold plain_char; discriminate.
Ltac go_closes := repeat first [apply closes_nil | apply closes_open | apply closes_close | apply closes_char; [discriminate|discriminate|unfold plain_char; discriminate|]].
Fixpoint para_ok (b : bool) (t : text) : bool :=
  match t with
  | [] => b
  | c :: r => if (c =? 10)%Z then negb b && para_ok true r else negb (c =? 3)%Z && negb (c =? 64)%Z && negb (c =? 92)%Z && para_ok false r
  end.
Lemma raw_para : forall t b, para_ok b t = true -> w_para_text b t t true.
Proof.
  induction t as [|c t IH]; intros b H; cbn [para_ok] in H; [subst b; constructor|]. destruct (Z.eqb_spec c 10) as [->|N]; apply andb_prop in H; destruct H as [H K].
  - destruct b; [discriminate|]. constructor. auto.
  - apply andb_prop in H. destruct H as [H N3]. apply andb_prop in H. destruct H as [N1 N2]. rewrite negb_true_iff, Z.eqb_neq in N1, N2, N3. change (c :: t) with ([c] ++ t) at 2. constructor; auto. destruct (Z.eq_dec c 93) as [->|]; [apply l_bracket|]. constructor; [constructor; auto|congruence].
Qed.
Lemma plain_para : forall t, t <> [] -> para_ok true t = true -> w_para true [Plain t] t.
Proof. intros t N H. rewrite <- (app_nil_r t) at 2. eapply p_plain; eauto; [apply raw_para; exact H|exact I|constructor]. Qed.
Ltac go_par := apply plain_para; [discriminate|reflexivity].

(** Inline markup with an escape, a nested command and text that would be an argument. *)
Definition ex_parts : list doc := [Plain (T "a]|"); Command (T "b") [Plain (T "x{y}")]; Plain (T "[c")].
Definition ex_inline : text := T "a\]\n@b{x{y}}\[c".
Example ex_inline_written : w_inline ex_parts ex_inline.
Proof.
  refine (w_plain (T "a]|") (T "a\]\n") _ (T "@b{x{y}}\[c") _ _ _ _); [discriminate| |exact I|].
  - refine (w_more _ (T "a") _ _ _ _); [go_char|]. refine (w_more _ (T "\]") _ _ _ _); [go_char|]. refine (w_more _ (T "\n") _ [] _ _); [go_char|constructor].
  - refine (w_command (T "b") _ (T "{x{y}}") _ (T "\[c") _ _ _ _).
    + go_name.
    + refine (w_literal (T "x{y}") _ [] _ _); [go_closes|constructor].
    + cbn. split; [discriminate|]. split; discriminate.
    + refine (w_plain (T "[c") (T "\[c") _ [] _ _ _ _); [discriminate| |exact I|constructor]. refine (w_more _ (T "\[") _ _ _ _); [go_char|]. refine (w_more _ (T "c") _ [] _ _); [go_char|constructor].
Qed.
(** A document with everything in it, in a file. *)
Definition ex_nested : list doc := [Command (txt ".block") [Plain (T "Some| text.|")]; Command (T "item") [Sequence [Command (txt ".block") [Plain (T "More.|")]]]].
Definition ex_text : text := T "|@title[a\]\n@b{x{y}}\[c]|@section{One}{}| Some|  text.|| @item|  More.|The end.||@stop|".
Definition ex_doc : list doc :=
  [Command (T "title") [Sequence ex_parts]; Command (T "section") [Plain (T "One"); Plain []; Sequence ex_nested];
   Command (txt ".block") [Plain (T "The end.|")]; Command (T "stop") []].
Example ex_doc_written : w_doc ex_doc ex_text.
Proof.
  refine (w_blank_line _ (T "@title[a\]\n@b{x{y}}\[c]|@section{One}{}| Some|  text.|| @item|  More.|The end.||@stop|") _).
  refine (w_block (T "title") [Sequence ex_parts] (T "[a\]\n@b{x{y}}\[c]|") false _ (T "@section{One}{}| Some|  text.|| @item|  More.|The end.||@stop|") _ _ _ _ _); [discriminate|go_name| | |discriminate].
  - refine (r_last [Sequence ex_parts] (T "[a\]\n@b{x{y}}\[c]") [] (T "|") false _ _); [|refine (e_line [] [] _); constructor]. refine (w_markup ex_parts ex_inline _ [] ex_inline_written _). constructor.
  - refine (w_block (T "section") [Plain (T "One"); Plain []; Sequence ex_nested] (T "{One}{}| Some|  text.|| @item|  More.|") true _ (T "The end.||@stop|") _ _ _ _ _); [discriminate|go_name| | |].
    + refine (r_last [Plain (T "One"); Plain []] (T "{One}{}") [Sequence ex_nested] (T "| Some|  text.|| @item|  More.|") true _ _).
      * refine (w_literal (T "One") _ (T "{}") _ _); [go_closes|]. refine (w_literal [] _ [] _ _); [go_closes|constructor].
      * refine (e_block [] [] ex_nested (T "Some| text.||@item| More.|") _ _ _); [constructor| |vm_compute; discriminate].
        refine (w_paragraph [Plain (T "Some| text.|")] (T "Some| text.|") _ (T "|@item| More.|") _ _ _ _); [go_par|vm_compute; split; discriminate| |intros H; apply H; reflexivity].
        refine (w_blank_line _ (T "@item| More.|") _). refine (w_block (T "item") [Sequence [Command (txt ".block") [Plain (T "More.|")]]] (T "| More.|") true _ [] _ _ _ _ _); [discriminate|go_name| |constructor|auto].
        refine (r_last [] [] _ (T "| More.|") true _ _); [constructor|]. refine (e_block [] [] _ (T "More.|") _ _ _); [constructor| |vm_compute; discriminate].
        refine (w_paragraph [Plain (T "More.|")] (T "More.|") _ [] _ _ _ _); [go_par|vm_compute; split; discriminate|constructor|intros []].
    + refine (w_paragraph [Plain (T "The end.|")] (T "The end.|") _ (T "|@stop|") _ _ _ _); [go_par|vm_compute; split; discriminate| |intros H; apply H; reflexivity].
      refine (w_blank_line _ (T "@stop|") _). refine (w_block (T "stop") [] (T "|") false _ [] _ _ _ _ _); [discriminate|go_name| |constructor|discriminate].
      refine (r_last [] [] [] (T "|") false _ _); [constructor|]. refine (e_line [] [] _). constructor.
    + right. vm_compute. discriminate.
Qed.
Example ex_doc_read : fbld_parse 200 [ex_text] = Ok (Some (Sequence ex_doc)).
Proof. vm_compute. reflexivity. Qed.
(** Arguments in three rounds: on the line, as lines of text, in lines after it, and at the end. *)
Definition ex_see : list doc := [Command (T "see") [Plain (T "x")]; Plain (T ": ]@|"); Command (T "b") [Plain (T "y")]; Plain (T ".|")].
Definition ex_rounds : text := T "@def{f} a]@b @|  raw|| {x||@ same two| X.|| Y.|@[z] @@|@@see{x}: ]\@|@b[y].||@stop{}|".
Definition ex_rounds_doc : list doc :=
  [Command (T "def") [Plain (T "f"); Sequence [Plain (T "a]"); Command (T "b") []]; Plain (T " raw||{x|"); Plain (T "same two");
    Sequence [Command (txt ".block") [Plain (T "X.|")]; Command (txt ".block") [Plain (T "Y.|")]]; Plain (T "z");
    Sequence [Command (txt ".block") [Sequence ex_see]; Command (T "stop") [Plain []]]]].
Lemma raw_line : forall t, Forall (fun c => plain_char c /\ c <> 64%Z /\ c <> 92%Z /\ c <> 93%Z /\ c <> 10%Z) t -> w_line_text t t.
Proof. intros t F. induction F as [|c t [A [B [C [D E]]]] F IH]; [constructor|]. change (c :: t) with ([c] ++ t) at 2. constructor; auto. constructor; [constructor; auto|congruence]. Qed.
Ltac go_line := apply raw_line; repeat constructor; unfold plain_char; discriminate.
Example ex_rounds_written : w_doc ex_rounds_doc ex_rounds.
Proof.
  refine (w_last_block (T "def") [Plain (T "f"); Sequence [Plain (T "a]"); Command (T "b") []]; Plain (T " raw||{x|"); Plain (T "same two"); Sequence [Command (txt ".block") [Plain (T "X.|")]; Command (txt ".block") [Plain (T "Y.|")]]; Plain (T "z")]
    (T "{f} a]@b @|  raw|| {x||@ same two| X.|| Y.|@[z] @@|") [Command (txt ".block") [Sequence ex_see]; Command (T "stop") [Plain []]] (T "@@see{x}: ]\@|@b[y].||@stop{}|") _ _ _ _); [discriminate|go_name| |].
  - refine (f_next [Plain (T "f")] (T "{f}") [Sequence [Plain (T "a]"); Command (T "b") []]; Plain (T " raw||{x|")] (T " a]@b @|  raw|| {x||") true _ (T " same two| X.|| Y.|@[z] @@|") _ _ _).
    + refine (w_literal (T "f") _ [] _ _); [go_closes|constructor].
    + refine (e_literal [Sequence [Plain (T "a]"); Command (T "b") []]] (T " a]@b") (T " raw||{") 120%Z 1 _ _ _); [|vm_compute; intuition discriminate|discriminate].
      refine (same_line [Plain (T "a]"); Command (T "b") []] (T "a]@b") _). refine (s_plain (T "a]") (T "a]") _ (T "@b") _ _ _ _); [discriminate| |exact I|].
      * refine (l_more 97%Z (T "a") _ (T "]") _ _); [constructor; [go_char|discriminate]|]. refine (l_more 93%Z (T "]") [] [] _ _); [apply l_bracket|constructor].
      * refine (s_command (T "b") [] [] [] [] _ _ _ _ _); [discriminate|go_name|constructor|exact I|constructor].
    + refine (f_next [] [] [Plain (T "same two"); Sequence [Command (txt ".block") [Plain (T "X.|")]; Command (txt ".block") [Plain (T "Y.|")]]] (T " same two| X.|| Y.|") true _ (T "[z] @@|") _ _ _); [constructor| |].
      * refine (e_block [Plain (T "same two")] (T " same two") _ (T "X.||Y.|") _ _ _); [|..].
        -- refine (same_line [Plain (T "same two")] (T "same two") _). refine (s_plain (T "same two") (T "same two") [] [] _ _ _ _); [discriminate|go_line|exact I|constructor].
        -- refine (w_paragraph [Plain (T "X.|")] (T "X.|") _ (T "|Y.|") _ _ _ _); [go_par|vm_compute; split; discriminate| |intros H; apply H; reflexivity]. refine (w_blank_line _ (T "Y.|") _). refine (w_paragraph [Plain (T "Y.|")] (T "Y.|") _ [] _ _ _ _); [go_par|vm_compute; split; discriminate|constructor|intros []].
        -- vm_compute. discriminate.
      * refine (f_same [Plain (T "z")] (T "[z]") [] [] _ _); [|constructor]. refine (w_markup [Plain (T "z")] (T "z") [] [] _ _); [|constructor]. refine (w_plain (T "z") (T "z") [] [] _ _ _ _); [discriminate|go_raw|exact I|constructor].
  - refine (w_paragraph_at (T "see") [Plain (T "x")] (tl ex_see) (T "@see{x}: ]\@|@b[y].|") _ (T "|@stop{}|") _ _ _ _); [discriminate| | |intros H; apply H; reflexivity].
    + refine (p_inner true (T "see") _ (T "{x}") _ (T ": ]\@|@b[y].|") _ _ _ _); [go_name| |cbn; split; [discriminate|split; discriminate]|].
      * refine (w_literal (T "x") _ [] _ _); [go_closes|constructor].
      * refine (p_plain false (T ": ]@|") (T ": ]\@|") true _ (T "@b[y].|") _ _ _ _); [discriminate| |exact I|].
        -- refine (p_char _ 58%Z (T ":") _ (T " ]\@|") _ _ _); [apply l_char; [go_char|discriminate]|]. refine (p_char _ 32%Z (T " ") _ (T "]\@|") _ _ _); [apply l_char; [go_char|discriminate]|].
           refine (p_char _ 93%Z (T "]") _ (T "\@|") _ _ _); [apply l_bracket|]. refine (p_char _ 64%Z (T "\@") _ (T "|") _ _ _); [apply l_char; [go_char|discriminate]|]. refine (p_newline [] [] _ _). constructor.
        -- refine (p_inner true (T "b") _ (T "[y]") _ (T ".|") _ _ _ _); [go_name| |cbn; split; [discriminate|split; discriminate]|].
           ++ refine (w_markup [Plain (T "y")] (T "y") [] [] _ _); [|constructor]. refine (w_plain (T "y") (T "y") [] [] _ _ _ _); [discriminate|go_raw|exact I|constructor].
           ++ refine (p_plain false (T ".|") (T ".|") true [] [] _ _ _ _); [discriminate|apply raw_para; reflexivity|exact I|constructor].
    + refine (w_blank_line _ (T "@stop{}|") _). refine (w_block (T "stop") [Plain []] (T "{}|") false _ [] _ _ _ _ _); [discriminate|go_name| |constructor|discriminate].
    refine (r_last [Plain []] (T "{}") [] (T "|") false _ _); [refine (w_literal [] [] [] _ _); [go_closes|constructor]|]. refine (e_line [] [] _). constructor.
Qed.
Example ex_rounds_read : fbld_parse 200 [ex_rounds] = Ok (Some (Sequence ex_rounds_doc)).
Proof. vm_compute. reflexivity. Qed.
(** The same in three files. *)
Example ex_files : text_files [T "|@title[a\]\n@b{x{y}}\[c]|@section{One}{}| Some|"; []; T "  text.|| @item|  More.|The end.||@stop|"] /\
  concat [T "|@title[a\]\n@b{x{y}}\[c]|@section{One}{}| Some|"; []; T "  text.|| @item|  More.|The end.||@stop|"] = ex_text.
Proof.
  split; [split; [|split]|reflexivity].
  - repeat apply Forall_cons; [right; exists (T "|@title[a\]\n@b{x{y}}\[c]|@section{One}{}| Some"); reflexivity|left; reflexivity|right; exists (T "  text.|| @item|  More.|The end.||@stop"); reflexivity|apply Forall_nil].
  - vm_compute. intuition discriminate.
  - intros r. discriminate.
Qed.
(** A block argument that is not in the grammar above. *)
Example ex_alone : let t := T "@x a b @|  raw @y|z @w[@v]|" in text_files [t] /\ starts_line t /\
  exists d, fbld_parse 100 [t] = Ok (Some d) /\ fbld_parse 100 [T "@k{a} b|" ++ indented t ++ T "@stop|"] = Ok (Some (Sequence [Command (T "k") [Plain (T "a"); Plain (T "b"); d]; Command (T "stop") []])).
Proof.
  cbv zeta. split; [split; [|split]|split; [vm_compute; discriminate|]].
  - apply Forall_cons; [|apply Forall_nil]. right. exists (T "@x a b @|  raw @y|z @w[@v]"). reflexivity.
  - vm_compute. intuition discriminate.
  - intros r. discriminate.
  - eexists. split; vm_compute; reflexivity.
Qed.
(** Without a new line at the end of the file an assertion fails; so it does when a file that does
    not end with one is followed by another in the middle of an indented argument. *)
Example no_newline : fbld_parse 100 [T "@foo a"] = Stop AssertFail.
Proof. vm_compute. reflexivity. Qed.
Example no_newline_between : fbld_parse 100 [T "@foo @| ab"; T "cd|"] = Stop AssertFail /\ fbld_parse 100 [T "@foo @| abcd|"] <> Stop AssertFail.
Proof. vm_compute. split; [reflexivity|discriminate]. Qed.
(** A first line with one space is skipped; elsewhere such a line is text. *)
Example first_line : fbld_parse 100 [T " |x|"] = Ok (Some (Sequence [Command (txt ".block") [Plain (T "x|")]])) /\
  fbld_parse 100 [T "| |x|"] = Ok (Some (Sequence [Command (txt ".block") [Plain (T " |x|")]])).
Proof. vm_compute. split; reflexivity. Qed.

Print Assumptions parse_finishes.
Print Assumptions files_concatenate.
Print Assumptions written_is_read.
Print Assumptions writing_unambiguous.
Print Assumptions block_argument_alone.
