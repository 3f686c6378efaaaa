(** * C33, C34: names and module paths; C41: token locations; C42: reading module paths. *)
From Coq Require Import ZArith List Bool Lia.
From Verif Require Import PathModel.
Import ListNotations.
Local Open Scope Z_scope.

(** The text of a C string: bytes other than NUL. *)
Definition text_ok (s : str) : Prop := Forall (fun b => 0 < b < 256) s.
Definition name_ok (n : name) : Prop := text_ok (n_str n).
Definition path_ok (p : path) : Prop := Forall name_ok p.

(** ** C33 *)

Lemma strcmp_eq a b : text_ok a -> text_ok b -> (strcmp a b = 0 <-> a = b).
Proof.
  revert b. induction a as [|x a IH]; intros b Ha Hb; destruct b as [|y b]; cbn [strcmp].
  - tauto.
  - inversion Hb; subst. split; [lia|discriminate].
  - inversion Ha; subst. split; [lia|discriminate].
  - inversion Ha; inversion Hb; subst. destruct (Z.eqb_spec x y) as [->|Hn].
    + rewrite IH by auto. split; congruence.
    + split; [lia|congruence].
Qed.

Lemma names_equal_spec a b : name_ok a -> name_ok b -> (names_equal a b = true <-> a = b).
Proof.
  intros Ha Hb. unfold names_equal. rewrite andb_true_iff, Z.eqb_eq, strcmp_eq by auto.
  destruct a as [sa []], b as [sb []]; cbn; (split; [intros [H1 H2]; congruence|intros H; split; congruence]).
Qed.

Lemma names_equal_from_spec a b i k : path_ok a -> path_ok b ->
  (i + k <= length a)%nat -> (i + k <= length b)%nat ->
  exists r, names_equal_from a b i k = Some r /\
    (r = true <-> firstn k (skipn i a) = firstn k (skipn i b)).
Proof.
  intros Ha Hb. revert i. induction k as [|k IH]; intros i La Lb; cbn [names_equal_from].
  - exists true. cbn. tauto.
  - destruct (nth_error a i) as [x|] eqn:Ea; [|apply nth_error_None in Ea; lia].
    destruct (nth_error b i) as [y|] eqn:Eb; [|apply nth_error_None in Eb; lia].
    assert (Sk : forall (c : path) z, nth_error c i = Some z -> skipn i c = z :: skipn (S i) c).
    { clear. intros c. revert i. induction c as [|w c IH]; intros [|i] z E; cbn in *; try discriminate.
      - congruence.
      - apply IH; auto. }
    rewrite (Sk a x Ea), (Sk b y Eb). cbn [firstn].
    assert (Hx : name_ok x) by (apply nth_error_In in Ea; unfold path_ok in Ha; rewrite Forall_forall in Ha; auto).
    assert (Hy : name_ok y) by (apply nth_error_In in Eb; unfold path_ok in Hb; rewrite Forall_forall in Hb; auto).
    pose proof (names_equal_spec x y Hx Hy) as Hxy. destruct (names_equal x y).
    + destruct (IH (S i)) as [r [Er Hr]]; [lia|lia|]. exists r. split; [exact Er|].
      rewrite Hr. assert (x = y) by tauto. subst. split; congruence.
    + exists false. split; [reflexivity|]. split; [discriminate|]. intros E.
      assert (x = y) by congruence. apply Hxy in H. discriminate.
Qed.

(** Module paths are equal exactly if they have the same components; the comparison reads
    within both vectors. *)
Theorem module_paths_equal_exact a b : path_ok a -> path_ok b ->
  exists r, paths_equal a b = Some r /\ (r = true <-> a = b).
Proof.
  intros Ha Hb. unfold paths_equal. destruct (Nat.eqb_spec (length a) (length b)) as [E|E]; cbn [negb].
  - destruct (names_equal_from_spec a b 0 (length a) Ha Hb) as [r [Er Hr]]; [lia|lia|].
    exists r. split; [exact Er|]. rewrite Hr. cbn [skipn]. rewrite firstn_all, E, firstn_all. tauto.
  - exists false. split; [reflexivity|]. split; [discriminate|]. intros ->. congruence.
Qed.

(** A module belongs to a package exactly if the package path is a prefix of its path. *)
Theorem belongs_to_package_exact m p : path_ok m -> path_ok p ->
  exists r, belongs_to m p = Some r /\ (r = true <-> exists rest, m = p ++ rest).
Proof.
  intros Hm Hp. unfold belongs_to. destruct (Nat.ltb_spec (length m) (length p)) as [L|L].
  - exists false. split; [reflexivity|]. split; [discriminate|]. intros [rest ->]. rewrite app_length in L. lia.
  - destruct (names_equal_from_spec m p 0 (length p) Hm Hp) as [r [Er Hr]]; [lia|lia|].
    exists r. split; [exact Er|]. rewrite Hr. cbn [skipn]. rewrite firstn_all. split.
    + intros E. exists (skipn (length p) m). rewrite <- E at 1. symmetry. apply firstn_skipn.
    + intros [rest ->]. rewrite firstn_app, Nat.sub_diag, firstn_all. cbn. apply app_nil_r.
Qed.

(** ** The lexer reads a text *)

Definition chr (file : bool) (b : Z) : Z := if file then b else to_char b.

(** [l] is at the start of [t]. *)
Definition at_text (l : lex) (t : str) : Prop :=
  match t with
  | [] => lc l = EOF /\ inp l = []
  | b :: r => lc l = chr (from_file l) b /\ inp l = r
  end.

Lemma read_next_file l : from_file (read_next l) = from_file l.
Proof. unfold read_next. destruct (inp l); destruct (lc l =? NL); [|destruct (negb (lc l =? EOF))| |destruct (negb (lc l =? EOF))]; reflexivity. Qed.

Lemma read_next_at l b r : at_text l (b :: r) -> at_text (read_next l) r.
Proof.
  intros [H1 H2]. unfold read_next. rewrite H2. destruct r as [|b' r'].
  - destruct (lc l =? NL); [|destruct (negb (lc l =? EOF))]; cbn; auto.
  - destruct (lc l =? NL); [|destruct (negb (lc l =? EOF))]; cbn; auto.
Qed.

Lemma to_char_small b : 0 <= b < 128 -> to_char b = b.
Proof. intros H. unfold to_char. rewrite Z.mod_small by lia. destruct (Z.ltb_spec b 128); lia. Qed.
Lemma to_char_big b : 128 <= b < 256 -> to_char b = b - 256.
Proof. intros H. unfold to_char. rewrite Z.mod_small by lia. destruct (Z.ltb_spec b 128); lia. Qed.
Lemma chr_mod file b : 0 <= b < 256 -> chr file b mod 256 = b.
Proof.
  intros H. destruct file; cbn [chr]; [apply Z.mod_small; auto|].
  destruct (Z_lt_ge_dec b 128); [rewrite to_char_small by lia; apply Z.mod_small; lia|].
  rewrite to_char_big by lia. rewrite <- (Z_mod_plus_full (b - 256) 1 256). rewrite Z.mod_small; lia.
Qed.

Lemma word_char_facts ub c : is_word_char ub c = true ->
  isspace ub c = false /\ is_punctuation c = false /\ c <> quote /\ c <> hash /\ c <> EOF.
Proof.
  unfold is_word_char. destruct (isspace ub c) eqn:E1; cbn [orb]; [discriminate|].
  destruct (is_punctuation c) eqn:E2; cbn [orb]; [discriminate|].
  destruct (Z.eqb_spec c quote); cbn [orb]; [discriminate|].
  destruct (Z.eqb_spec c hash); [discriminate|]. intros _. repeat split; auto.
  intros ->. discriminate.
Qed.

Lemma big_word_char ub b : 128 <= b < 256 -> is_word_char ub b = true.
Proof.
  intros H. unfold is_word_char, isspace, isspace_defined, is_punctuation.
  rewrite to_char_big by auto.
  destruct (Z.leb_spec (-1) b); [|lia]. destruct (Z.leb_spec b 255); [|lia].
  destruct (Z.leb_spec 9 b); [|lia]. destruct (Z.leb_spec b 13); [lia|].
  destruct (Z.eqb_spec b 32); [lia|]. destruct (Z.eqb_spec b EOF); [unfold EOF in *; lia|].
  cbn [andb orb]. assert (E : existsb (Z.eqb (b - 256)) (punctuation ++ [0]) = false).
  { destruct (existsb (Z.eqb (b - 256)) (punctuation ++ [0])) eqn:E; auto. apply existsb_exists in E.
    destruct E as [x [Hx Ex]]. apply Z.eqb_eq in Ex.
    assert (P : forallb (fun x => 0 <=? x) (punctuation ++ [0]) = true) by reflexivity.
    rewrite forallb_forall in P. specialize (P x Hx). lia. }
  rewrite E. cbn [orb]. destruct (Z.eqb_spec b quote); [unfold quote in *; lia|].
  destruct (Z.eqb_spec b hash); [unfold hash in *; lia|]. reflexivity.
Qed.

(** A byte that is a word character as a plain char is one as an unsigned char. *)
Lemma word_char_unsigned ub b : 0 < b < 256 -> is_word_char ub (to_char b) = true -> is_word_char ub b = true.
Proof.
  intros H. destruct (Z_lt_ge_dec b 128); [rewrite to_char_small by lia; auto|]. intros _. apply big_word_char. lia.
Qed.

Lemma not_word_end ub : is_word_char ub EOF = false.
Proof. unfold is_word_char, isspace. cbn. reflexivity. Qed.

(** What may come after a word that is not quoted / quoted. *)
Definition head (file : bool) (t : str) : Z := match t with [] => EOF | b :: _ => chr file b end.
Lemma at_head l t : at_text l t -> lc l = head (from_file l) t.
Proof. destruct t; cbn; tauto. Qed.

Lemma plain_word_reads ub xs rest : forall fuel l w,
  at_text l (xs ++ rest) -> Forall (fun b => is_word_char ub (chr (from_file l) b) = true) xs ->
  is_word_char ub (head (from_file l) rest) = false -> (length xs < fuel)%nat ->
  exists l', plain_word ub fuel l w = Some (l', rev (map (chr (from_file l)) xs) ++ w) /\ at_text l' rest /\
    from_file l' = from_file l.
Proof.
  induction xs as [|x xs IH]; intros fuel l w A F R L; (destruct fuel as [|f]; [cbn in L; lia|]); cbn [plain_word].
  - cbn [app] in A. rewrite (at_head _ _ A), R. exists l. auto.
  - pose proof A as A'. destruct A' as [A1 A2]. inversion F as [|? ? Fx Fr]; subst. rewrite A1, Fx.
    apply read_next_at in A. 
    destruct (IH f (read_next l) (chr (from_file l) x :: w)) as [l' [E [B C]]];
      rewrite ?read_next_file; auto; [cbn in L; lia|].
    exists l'. rewrite E, read_next_file. cbn [map rev]. rewrite <- app_assoc. rewrite read_next_file in C. auto.
Qed.

Lemma quoted_run_reads xs rest : forall fuel l w,
  at_text l (xs ++ quote :: rest) -> Forall (fun b => chr (from_file l) b <> quote /\ chr (from_file l) b <> EOF) xs ->
  (length xs < fuel)%nat ->
  exists l', quoted_run fuel l w = Some (l', rev (map (chr (from_file l)) xs) ++ w) /\ at_text l' (quote :: rest) /\
    from_file l' = from_file l.
Proof.
  induction xs as [|x xs IH]; intros fuel l w A F L; (destruct fuel as [|f]; [cbn in L; lia|]); cbn [quoted_run].
  - cbn [app] in A. destruct A as [A1 A2]. rewrite A1. 
    assert (Q : chr (from_file l) quote = quote) by (destruct (from_file l); reflexivity). rewrite Q.
    cbn [negb andb Z.eqb]. replace (quote =? EOF) with false by reflexivity. replace (quote =? quote) with true by reflexivity.
    exists l. cbn [negb andb map rev app]. split; [reflexivity|]. cbn. rewrite Q. repeat split; auto; congruence.
  - pose proof A as A'. destruct A' as [A1 A2]. inversion F as [|? ? Fx Fr]; subst. rewrite A1.
    destruct (Z.eqb_spec (chr (from_file l) x) EOF); [tauto|].
    destruct (Z.eqb_spec (chr (from_file l) x) quote); [tauto|]. cbn [negb andb].
    apply read_next_at in A.
    destruct (IH f (read_next l) (chr (from_file l) x :: w)) as [l' [E [B C]]];
      rewrite ?read_next_file; auto; [cbn in L; lia|].
    exists l'. rewrite E, read_next_file. cbn [map rev]. rewrite <- app_assoc. rewrite read_next_file in C. auto.
Qed.

Definition escape (s : str) : str := flat_map (fun c => if c =? quote then [quote; c] else [c]) s.

(** Split at the first quote. *)
Lemma split_quote (s : str) : ~ In quote s \/ exists a b, s = a ++ quote :: b /\ ~ In quote a.
Proof.
  induction s as [|x s IH]; [left; auto|]. destruct (Z.eq_dec x quote) as [->|Hn].
  - right. exists [], s. auto.
  - destruct IH as [H|[a [b [-> H]]]].
    + left. intros [E|E]; auto.
    + right. exists (x :: a), b. split; [reflexivity|]. intros [E|E]; auto.
Qed.
Lemma escape_app a b : escape (a ++ b) = escape a ++ escape b.
Proof. apply flat_map_app. Qed.
Lemma escape_id a : ~ In quote a -> escape a = a.
Proof.
  induction a as [|x a IH]; intros H; cbn; auto. destruct (Z.eqb_spec x quote) as [->|Hn].
  - exfalso. apply H. left. auto.
  - cbn. f_equal. apply IH. intros Q. apply H. right. auto.
Qed.

Lemma no_quote_ok (file : bool) xs : (if file then text_ok xs else Forall (fun b => 0 < b < 255) xs) -> ~ In quote xs ->
  Forall (fun b => chr file b <> quote /\ chr file b <> EOF) xs.
Proof.
  intros T H. apply Forall_forall. intros b Hb. assert (b <> quote) by (intros ->; auto).
  unfold quote, EOF in *. destruct file; cbn [chr].
  - unfold text_ok in T. rewrite Forall_forall in T. specialize (T b Hb). lia.
  - rewrite Forall_forall in T. specialize (T b Hb). destruct (Z_lt_ge_dec b 128);
      [rewrite to_char_small by lia|rewrite to_char_big by lia]; lia.
Qed.

Lemma quoted_word_reads : forall n xs rest fuel l w, (length xs <= n)%nat -> from_file l = true ->
  at_text l (quote :: escape xs ++ quote :: rest) -> text_ok xs ->
  head true rest <> quote -> (length (escape xs) + 1 < fuel)%nat ->
  exists l', quoted_word fuel l w = Some (l', rev xs ++ w) /\ at_text l' rest /\ from_file l' = true.
Proof.
  induction n as [|n IH]; intros xs rest fuel l w Ln Hf A T R L; (destruct fuel as [|f]; [lia|]); cbn [quoted_word].
  - destruct xs; [|cbn in Ln; lia]. cbn [escape flat_map app] in *. apply read_next_at in A.
    destruct (quoted_run_reads [] rest f (read_next l) w) as [l1 [E1 [A1 F1]]]; [exact A|constructor|cbn in *; lia|].
    rewrite E1. cbn [map rev app]. rewrite read_next_file in F1. apply read_next_at in A1. pose proof (at_head _ _ A1) as Hh.
    rewrite read_next_file in Hh. rewrite F1, Hf in Hh. rewrite Hh.
    destruct (Z.eqb_spec (head true rest) quote); [tauto|]. eexists. split; [reflexivity|].
    rewrite read_next_file, F1, Hf. auto.
  - destruct (split_quote xs) as [Hq|[a [b [-> Hq]]]].
    + rewrite (escape_id xs Hq) in *. apply read_next_at in A.
      destruct (quoted_run_reads xs rest f (read_next l) w) as [l1 [E1 [A1 F1]]]; [exact A| |cbn in *; lia|].
      { rewrite read_next_file, Hf. apply no_quote_ok; auto. }
      rewrite E1. rewrite read_next_file in F1. apply read_next_at in A1. pose proof (at_head _ _ A1) as Hh.
      rewrite read_next_file in Hh. rewrite F1, Hf in Hh. rewrite Hh.
      destruct (Z.eqb_spec (head true rest) quote); [tauto|]. eexists. split.
      * rewrite read_next_file, Hf. cbn [chr]. rewrite map_id. reflexivity.
      * rewrite read_next_file, F1, Hf. auto.
    + apply Forall_app in T. destruct T as [Ta Tb]. inversion Tb as [|? ? _ Tb']; subst.
      rewrite escape_app in A, L. rewrite (escape_id a Hq) in A, L. cbn [escape flat_map] in A, L. fold (escape b) in A, L.
      destruct (Z.eqb_spec quote quote) as [_|]; [|congruence].
      cbn [app] in A, L. rewrite <- app_assoc in A. cbn [app] in A.
      apply read_next_at in A.
      destruct (quoted_run_reads a (quote :: escape b ++ quote :: rest) f (read_next l) w) as [l1 [E1 [A1 F1]]].
      { exact A. } { rewrite read_next_file, Hf. apply no_quote_ok; auto. }
      { rewrite app_length in L. cbn in L. lia. }
      rewrite E1. rewrite read_next_file in F1. apply read_next_at in A1. pose proof (at_head _ _ A1) as Hh.
      rewrite read_next_file in Hh. rewrite F1, Hf in Hh. rewrite Hh. cbn [head chr].
      destruct (Z.eqb_spec quote quote) as [_|]; [|congruence].
      rewrite !app_length in L. cbn [length] in L.
      destruct (IH b rest f (read_next l1) (quote :: rev (map (chr (from_file (read_next l))) a) ++ w)) as [l' [E [B C]]]; auto.
      * rewrite app_length in Ln. cbn in Ln. lia.
      * rewrite read_next_file. congruence.
      * lia.
      * exists l'. rewrite E. rewrite read_next_file, Hf. cbn [chr]. rewrite map_id. rewrite rev_app_distr. cbn [rev].
        rewrite <- !app_assoc. cbn. auto.
Qed.

Lemma skip_blank_stop ub fuel l : isspace ub (lc l) = false -> lc l <> hash -> skip_blank ub (S fuel) l = Some l.
Proof. intros H1 H2. cbn [skip_blank]. rewrite H1. destruct (Z.eqb_spec (lc l) hash); [tauto|]. reflexivity. Qed.

Lemma c_string_id s : text_ok s -> c_string s = s.
Proof.
  induction s as [|b s IH]; intros H; [reflexivity|]. inversion H; subst. cbn.
  destruct (Z.eqb_spec b 0); [lia|]. f_equal. auto.
Qed.

Lemma map_chr_mod file s : text_ok s -> map (fun c => c mod 256) (map (chr file) s) = s.
Proof.
  induction s as [|b s IH]; intros H; [reflexivity|]. inversion H; subst. cbn [map].
  rewrite chr_mod by lia. f_equal. auto.
Qed.

Lemma inp_length l t : at_text l t -> (length t <= S (length (inp l)))%nat.
Proof. destruct t; cbn; [lia|]. intros [_ ->]. lia. Qed.

(** The separator after a printed word: the next character ends a word and is no quote. *)
Definition ends_word (ub : Z -> bool) (file : bool) (rest : str) : Prop :=
  is_word_char ub (head file rest) = false /\ head file rest <> quote.

Lemma yylex_plain ub l w rest : at_text l (w ++ rest) -> text_ok w -> w <> [] ->
  Forall (fun b => is_word_char ub (chr (from_file l) b) = true) w ->
  is_word_char ub (head (from_file l) rest) = false ->
  exists l', yylex ub l = Some (TWord w, line l, col l, l') /\ at_text l' rest /\ from_file l' = from_file l.
Proof.
  intros A T N F R. destruct w as [|b w]; [congruence|].
  pose proof A as [A1 A2]. assert (Fb : is_word_char ub (lc l) = true) by (rewrite A1; inversion F; auto).
  destruct (word_char_facts ub _ Fb) as [S1 [S2 [S3 [S4 S5]]]].
  unfold yylex. rewrite skip_blank_stop by auto.
  destruct (Z.eqb_spec (lc l) EOF); [tauto|]. rewrite S2. destruct (Z.eqb_spec (lc l) quote); [tauto|].
  destruct (plain_word_reads ub (b :: w) rest (S (S (length (inp l)))) l []) as [l' [E [B C]]]; auto.
  { pose proof (inp_length _ _ A) as L. rewrite app_length in L. lia. }
  rewrite E. exists l'. rewrite app_nil_r, rev_involutive, map_chr_mod, c_string_id by auto. auto.
Qed.

Lemma yylex_quoted ub l w rest : from_file l = true -> at_text l (quote :: escape w ++ quote :: rest) -> text_ok w ->
  head true rest <> quote ->
  exists l', yylex ub l = Some (TWord w, line l, col l, l') /\ at_text l' rest /\ from_file l' = true.
Proof.
  intros Hf A T R. pose proof A as [A1 A2]. rewrite Hf in A1. cbn in A1.
  unfold yylex. rewrite skip_blank_stop by (rewrite A1; first [reflexivity|discriminate]).
  rewrite A1. replace (quote =? EOF) with false by reflexivity. replace (is_punctuation quote) with false by reflexivity.
  replace (quote =? quote) with true by reflexivity.
  destruct (quoted_word_reads (length w) w rest (S (S (length (inp l)))) l []) as [l' [E [B C]]]; auto.
  { rewrite A2. rewrite app_length. cbn. lia. }
  rewrite E. exists l'. rewrite app_nil_r, rev_involutive.
  pose proof (map_chr_mod true w T) as M. cbn [chr] in M. rewrite map_id in M. rewrite M, c_string_id by auto. auto.
Qed.

Lemma plain_no_quote ub w : is_plain_word ub w = true -> text_ok w -> ~ In quote w.
Proof.
  unfold is_plain_word. rewrite forallb_forall. intros H T Q. specialize (H _ Q).
  rewrite to_char_small in H by (unfold quote; lia). apply word_char_facts in H. tauto.
Qed.

(** More fuel changes nothing. *)
Lemma skip_comment_mono f : forall f' l r, skip_comment f l = Some r -> (f <= f')%nat -> skip_comment f' l = Some r.
Proof.
  induction f as [|f IH]; intros f' l r H L; [discriminate|]. destruct f' as [|f']; [lia|]. cbn [skip_comment] in *.
  destruct (negb (lc l =? EOF) && negb (lc l =? NL)); auto. apply IH; auto. lia.
Qed.
Lemma skip_blank_mono ub f : forall f' l r, skip_blank ub f l = Some r -> (f <= f')%nat -> skip_blank ub f' l = Some r.
Proof.
  induction f as [|f IH]; intros f' l r H L; [discriminate|]. destruct f' as [|f']; [lia|]. cbn [skip_blank] in *.
  destruct (isspace ub (lc l) || (lc l =? hash)); auto. destruct (lc l =? hash).
  - destruct (skip_comment f (read_next l)) eqn:E; [|discriminate]. rewrite (skip_comment_mono _ f' _ _ E) by lia.
    apply IH; auto. lia.
  - apply IH; auto. lia.
Qed.
Lemma plain_word_mono ub f : forall f' l w r, plain_word ub f l w = Some r -> (f <= f')%nat -> plain_word ub f' l w = Some r.
Proof.
  induction f as [|f IH]; intros f' l w r H L; [discriminate|]. destruct f' as [|f']; [lia|]. cbn [plain_word] in *.
  destruct (is_word_char ub (lc l)); auto. apply IH; auto. lia.
Qed.
Lemma quoted_run_mono f : forall f' l w r, quoted_run f l w = Some r -> (f <= f')%nat -> quoted_run f' l w = Some r.
Proof.
  induction f as [|f IH]; intros f' l w r H L; [discriminate|]. destruct f' as [|f']; [lia|]. cbn [quoted_run] in *.
  destruct (negb (lc l =? EOF) && negb (lc l =? quote)); auto. apply IH; auto. lia.
Qed.
Lemma quoted_word_mono f : forall f' l w r, quoted_word f l w = Some r -> (f <= f')%nat -> quoted_word f' l w = Some r.
Proof.
  induction f as [|f IH]; intros f' l w r H L; [discriminate|]. destruct f' as [|f']; [lia|]. cbn [quoted_word] in *.
  destruct (quoted_run f (read_next l) w) as [[l1 w1]|] eqn:E; [|discriminate].
  rewrite (quoted_run_mono _ f' _ _ _ E) by lia.
  destruct (lc (read_next l1) =? quote); auto. apply IH; auto. lia.
Qed.

Lemma read_next_inp l : (length (inp (read_next l)) <= length (inp l))%nat.
Proof.
  unfold read_next. destruct (inp l); destruct (lc l =? NL); [|destruct (negb (lc l =? EOF))| |destruct (negb (lc l =? EOF))]; cbn; lia.
Qed.

(** A blank before a token is skipped. *)
Lemma yylex_blank ub l b r : lc l = 32 -> inp l = b :: r ->
  forall t x y l', yylex ub (read_next l) = Some (t, x, y, l') -> yylex ub l = Some (t, x, y, l').
Proof.
  intros H I t x y l'. unfold yylex.
  assert (Lr : (S (length (inp (read_next l))) <= length (inp l))%nat).
  { unfold read_next. rewrite I, H. cbn. lia. }
  set (f := S (S (length (inp (read_next l))))). destruct (skip_blank ub f (read_next l)) as [l1|] eqn:E; [|discriminate].
  assert (E' : skip_blank ub (S (S (length (inp l)))) l = Some l1).
  { assert (Hf : (f <= S (length (inp l)))%nat) by (unfold f; lia).
    set (F := S (length (inp l))) in *. cbn [skip_blank]. rewrite H.
    replace (32 =? hash) with false by reflexivity. replace (isspace ub 32) with true by reflexivity. cbn [orb].
    apply (skip_blank_mono ub f); auto. }
  rewrite E'. destruct (lc l1 =? EOF); auto. destruct (is_punctuation (lc l1)); auto.
  destruct (lc l1 =? quote).
  - destruct (quoted_word f l1 []) as [[l2 w]|] eqn:Ew; [|discriminate].
    rewrite (quoted_word_mono _ (S (S (length (inp l)))) _ _ _ Ew) by (unfold f; lia). auto.
  - destruct (plain_word ub f l1 []) as [[l2 w]|] eqn:Ew; [|discriminate].
    rewrite (plain_word_mono _ _ (S (S (length (inp l)))) _ _ _ Ew) by (unfold f; lia). auto.
Qed.

Lemma yylex_eof ub l : at_text l [] -> yylex ub l = Some (TEnd, line l, col l, l).
Proof.
  intros [H1 H2]. unfold yylex. rewrite skip_blank_stop by (rewrite H1; first [reflexivity|discriminate]). rewrite H1. reflexivity.
Qed.

Lemma yylex_punct ub l b r : In b punctuation -> at_text l (b :: r) ->
  yylex ub l = Some (TPunct b, line l, col l, read_next l).
Proof.
  intros Hb [A1 A2].
  assert (P : forallb (fun b => (0 <? b) && (b <? 128) && negb (isspace (fun _ => false) b) && negb (b =? hash) && is_punctuation b) punctuation = true) by reflexivity.
  rewrite forallb_forall in P. specialize (P b Hb).
  repeat (apply andb_true_iff in P; destruct P as [P ?]).
  assert (E : chr (from_file l) b = b) by (destruct (from_file l); cbn; auto; apply to_char_small; lia).
  rewrite E in A1. unfold yylex.
  rewrite skip_blank_stop.
  - rewrite A1. destruct (Z.eqb_spec b EOF); [unfold EOF in *; lia|]. rewrite H.
    destruct (Z.eqb_spec b 0); [lia|]. reflexivity.
  - rewrite A1. unfold isspace in *. destruct (isspace_defined b) eqn:D.
    + apply negb_true_iff. auto.
    + unfold isspace_defined in D. lia.
  - rewrite A1. intros ->. discriminate.
Qed.

(** ** C34: a printed name reads back *)

(** In a text anywhere in a file, followed by anything that cannot be part of a word, a
    printed name is read as a word with the same characters, and the lexer then stands
    just after it. *)
Theorem printed_word_reads_back ub n l rest : name_ok n -> n_str n <> [] -> n_space n = Normal ->
  from_file l = true -> at_text l (print_name ub n ++ rest) -> ends_word ub true rest ->
  exists l', yylex ub l = Some (TWord (n_str n), line l, col l, l') /\ at_text l' rest /\ from_file l' = true.
Proof.
  intros Ok Ne Sp Hf A [R1 R2]. unfold print_name in A. rewrite Sp, app_nil_r in A. fold (escape (n_str n)) in A.
  destruct (is_plain_word ub (n_str n)) eqn:P; cbn [negb] in A.
  - cbn [app] in A. rewrite app_nil_r, (escape_id _ (plain_no_quote _ _ P Ok)) in A.
    rewrite <- Hf. apply yylex_plain; auto; rewrite ?Hf; auto.
    apply Forall_forall. intros b Hb. cbn [chr]. unfold is_plain_word in P. rewrite forallb_forall in P.
    unfold name_ok, text_ok in Ok. rewrite Forall_forall in Ok. apply word_char_unsigned; auto.
  - rewrite <- !app_assoc in A. cbn [app] in A. apply yylex_quoted; auto.
Qed.

Definition name_tokens (n : name) : list token :=
  match n_space n with Normal => [TWord (n_str n); TEnd] | Type_ => [TWord (n_str n); TPunct 64; TEnd] end.

(** A printed name, alone in a file, reads back as that name, whatever [isspace] does with
    the negative chars FbleIsPlainWord passes to it. *)
Theorem printed_name_reads_back ub n : name_ok n -> n_str n <> [] ->
  exists ts, tokens ub true (print_name ub n) = Some ts /\ parse_name (map (fun t => fst (fst t)) ts) = Some n.
Proof.
  intros Ok Ne. unfold tokens.
  set (m := mk_name (n_str n) Normal).
  assert (Em : print_name ub n = print_name ub m ++ match n_space n with Normal => [] | Type_ => [64] end).
  { unfold print_name, m. cbn [n_str n_space]. rewrite app_nil_r, <- !app_assoc. reflexivity. }
  rewrite Em. set (rest := match n_space n with Normal => [] | Type_ => [64] end).
  assert (Hd : exists b r, print_name ub m = b :: r).
  { unfold print_name, m. cbn [n_str n_space]. destruct (is_plain_word ub (n_str n)); cbn [negb]; [|do 2 eexists; reflexivity].
    destruct (n_str n) as [|b s]; [congruence|]. cbn. destruct (b =? quote); do 2 eexists; reflexivity. }
  destruct Hd as [b [r Ebr]].
  set (t := print_name ub m ++ rest). set (l0 := read_next (lex_init true t)).
  assert (A0 : at_text l0 t).
  { unfold l0. apply (read_next_at _ 32 t). split; reflexivity. }
  assert (Ew : ends_word ub true rest).
  { unfold rest, ends_word. destruct (n_space n); (split; [reflexivity|discriminate]). }
  destruct (printed_word_reads_back ub m l0 rest Ok Ne eq_refl) as [l1 [Y1 [A1 F1]]]; [apply read_next_file|exact A0|exact Ew|].
  assert (Y0 : yylex ub (lex_init true t) = Some (TWord (n_str n), line l0, col l0, l1)).
  { eapply yylex_blank; [reflexivity|unfold t; rewrite Ebr; reflexivity|exact Y1]. }
  assert (Hl : exists k, length t = S k) by (unfold t; rewrite Ebr; cbn; eauto). destruct Hl as [k Hl]. rewrite Hl.
  cbn [lex_all]. rewrite Y0. unfold rest in *. destruct n as [s sp]; cbn [n_space n_str] in *. destruct sp.
  - rewrite (yylex_eof ub l1 A1). eexists. split; [reflexivity|]. reflexivity.
  - rewrite (yylex_punct ub l1 64 []); [|cbn; tauto|exact A1].
    pose proof (read_next_at _ _ _ A1) as A2. 
    assert (Hk : exists k', k = S k').
    { destruct k; [|eauto]. unfold t in Hl. rewrite app_length, Ebr in Hl. cbn in Hl. lia. }
    destruct Hk as [k' ->]. rewrite (yylex_eof ub _ A2). eexists. split; reflexivity.
Qed.

(** The exception: the empty name, which the language allows (two quotes), prints as
    nothing. *)
Theorem empty_name_reads_back_refuted ub :
  tokens ub true [quote; quote] = Some [(TWord [], 1, 1); (TEnd, 1, 3)] /\
  print_name ub (mk_name [] Normal) = [] /\ tokens ub true [] = Some [(TEnd, 1, 1)].
Proof. repeat split. Qed.

Example quoted_name_example : print_name (fun _ => false) (mk_name [105; 116; 39; 115; 32] Type_) = [39; 105; 116; 39; 39; 115; 32; 39; 64].
Proof. reflexivity. Qed.

(** ** C42: module paths *)

(** What is needed of the names for the path to print as it is written. *)
Definition plain_path (ub : Z -> bool) (p : path) : Prop :=
  Forall (fun n => name_ok n /\ n_space n = Normal /\ n_str n <> [] /\ is_plain_word ub (n_str n) = true) p.

Definition rest_text (p : path) : str := flat_map (fun n => 47 :: n_str n) p ++ [37].

Lemma slash_head ub file b r : b = 47 \/ b = 37 -> ends_word ub file (b :: r).
Proof.
  intros H. unfold ends_word. destruct H as [-> | ->]; destruct file; cbn; (split; [|discriminate]);
  unfold is_word_char, isspace; cbn; reflexivity.
Qed.

Lemma rest_text_head p : exists b r, rest_text p = b :: r /\ (b = 47 \/ b = 37).
Proof. destruct p as [|n p]; cbn; eauto. Qed.

Lemma lex_rest ub p : forall l fuel, plain_path ub p -> at_text l (rest_text p) -> from_file l = false ->
  (2 * length p + 1 < fuel)%nat ->
  exists ts, lex_all ub fuel l = Some ts /\
  map (fun t => fst (fst t)) ts = flat_map (fun n => [TPunct 47; TWord (n_str n)]) p ++ [TPunct 37; TEnd].
Proof.
  induction p as [|n p IH]; intros l fuel P A Hf L.
  - destruct fuel as [|[|fuel]]; [cbn in L; lia|cbn in L; lia|]. cbn [rest_text flat_map app] in A. cbn [lex_all].
    rewrite (yylex_punct ub l 37 []); [|cbn; tauto|exact A]. apply read_next_at in A.
    rewrite (yylex_eof ub _ A). eexists. split; reflexivity.
  - destruct fuel as [|[|fuel]]; [cbn in L; lia|cbn in L; lia|]. inversion P as [|? ? [P1 [P2 [P3 P4]]] P5]; subst.
    cbn [rest_text flat_map app] in A. rewrite <- app_assoc in A. fold (rest_text p) in A. cbn [lex_all].
    rewrite (yylex_punct ub l 47 (n_str n ++ rest_text p)); [|cbn; tauto|exact A]. apply read_next_at in A.
    destruct (rest_text_head p) as [b [r [Er Hb]]].
    destruct (yylex_plain ub (read_next l) (n_str n) (rest_text p)) as [l1 [Y1 [A1 F1]]]; auto.
    { rewrite read_next_file, Hf. unfold is_plain_word in P4. rewrite forallb_forall in P4. apply Forall_forall. auto. }
    { rewrite read_next_file, Hf, Er. apply slash_head; auto. }
    rewrite Y1. rewrite read_next_file in F1.
    destruct (IH l1 fuel P5 A1) as [ts [E1 E2]]; [congruence|cbn in L; lia|].
    rewrite E1. eexists. split; [reflexivity|]. cbn [map fst flat_map app]. rewrite E2. reflexivity.
Qed.

Lemma parse_rest_path p : forall acc, Forall (fun n => n_space n = Normal) p ->
  parse_path_rest (flat_map (fun n => [TPunct 47; TWord (n_str n)]) p ++ [TPunct 37; TEnd]) acc = (Some (acc ++ p), false).
Proof.
  induction p as [|n p IH]; intros acc H; cbn [flat_map app].
  - rewrite app_nil_r. reflexivity.
  - inversion H as [|? ? H1 H2]; subst. cbn [parse_path_rest]. rewrite IH by auto. rewrite <- app_assoc. cbn [app].
    destruct n as [s sp]. cbn in *. rewrite H1. reflexivity.
Qed.

(** Printing a module path whose names are plain words and reading it as a command line
    module path gives the same path, without an error. *)
Theorem printed_module_path_reads_back ub p : plain_path ub p -> p <> [] ->
  parse_module_path ub (print_path p) = Some (Some p, false).
Proof.
  intros P Ne. assert (Ep : print_path p = rest_text p) by (destruct p; [congruence|reflexivity]).
  unfold parse_module_path, tokens. rewrite Ep.
  set (l0 := read_next (lex_init false (rest_text p))).
  assert (A0 : at_text l0 (rest_text p)) by (unfold l0; apply (read_next_at _ 32); split; reflexivity).
  destruct p as [|n p]; [congruence|].
  assert (Len : (2 * length (n :: p) + 1 <= length (rest_text (n :: p)))%nat).
  { clear -P. induction P as [|m q [H1 [H2 [H3 H4]]] P IH]; [cbn; lia|]. unfold rest_text in *. cbn [flat_map app length].
    rewrite <- app_assoc, app_length. destruct (n_str m) as [|c s]; [congruence|]. cbn [length] in *. lia. }
  (* the blank before the text *)
  assert (E0 : forall f, lex_all ub (S f) (lex_init false (rest_text (n :: p))) = lex_all ub (S f) l0).
  { intros f. cbn [lex_all].
    assert (Y : yylex ub l0 = Some (TPunct 47, line l0, col l0, read_next l0)).
    { eapply yylex_punct; [cbn; tauto|exact A0]. }
    rewrite Y. erewrite yylex_blank; [|reflexivity|reflexivity|exact Y]. reflexivity. }
  rewrite E0.
  destruct (lex_rest ub (n :: p) l0 (S (S (length (rest_text (n :: p)))))) as [ts [E1 E2]]; auto; [lia|].
  rewrite E1. f_equal. rewrite E2. cbn [flat_map app parse_path].
  inversion P as [|? ? [P1 [P2 [P3 P4]]] P5]; subst.
  rewrite parse_rest_path.
  - cbn [app]. destruct n as [s sp]. cbn in *. rewrite P2. reflexivity.
  - eapply Forall_impl; [|exact P5]. intros a [_ [Ha _]]. exact Ha.
Qed.

(** Not so for other names: a slash within a name is not told from a separator. *)
Theorem printed_module_path_refuted :
  print_path [mk_name [65; 47; 66] Normal] = print_path [mk_name [65] Normal; mk_name [66] Normal] /\
  (forall ub, parse_module_path ub [47; 39; 65; 47; 66; 39; 37] = Some (Some [mk_name [65; 47; 66] Normal], false)) /\
  (forall ub, parse_module_path ub [47; 65; 47; 66; 37] = Some (Some [mk_name [65] Normal; mk_name [66] Normal], false)).
Proof. repeat split. Qed.

(** FbleParseModulePath returns a path although it reports a syntax error (here for the
    text /A%%B): the parser result is not checked. *)
Theorem module_path_error_is_null_refuted : exists s p, forall ub, parse_module_path ub s = Some (Some p, true).
Proof. exists [47; 65; 37; 66], [mk_name [65] Normal]. reflexivity. Qed.

(** The buffer of FbleModulePathName is large enough. *)
Lemma path_name_len_eq p : forall k, fold_left (fun len n => (len + (1 + length (n_str n)))%nat) p k = (k + length (flat_map (fun n => 47%Z :: n_str n) p))%nat.
Proof.
  induction p as [|n p IH]; intros k; cbn [fold_left flat_map]; [cbn; lia|].
  rewrite IH. cbn [app length]. rewrite app_length. lia.
Qed.
Theorem module_path_name_fits p : path_name p = Some (print_path p).
Proof.
  unfold path_name, path_name_len. rewrite path_name_len_eq. fold (print_path p).
  destruct (Nat.leb_spec (S (length (print_path p))) (3 + length (flat_map (fun n => 47%Z :: n_str n) p))) as [H|H]; [reflexivity|].
  exfalso. unfold print_path in H. rewrite !app_length in H. destruct p; cbn in H; lia.
Qed.

(** ** C41: token locations *)

(** Specification: the line and column (from 1) of the character after [pre]. *)
Definition lines_before (pre : str) : Z := Z.of_nat (count_occ Z.eq_dec pre NL).
Fixpoint after_newline (pre : str) (acc : Z) : Z :=
  match pre with
  | [] => acc
  | b :: r => if b =? NL then after_newline r 0 else after_newline r (acc + 1)
  end.

(** [l] stands before [cur] in the text [pre ++ cur], with its location right. *)
Definition stands (l : lex) (text : str) : Prop :=
  from_file l = true /\ exists pre cur, text = pre ++ cur /\ at_text l cur /\
    line l = 1 + lines_before pre /\ col l = 1 + after_newline pre 0.

(** ... or before the blank put in front of the text. *)
Definition stands' (l : lex) (text : str) : Prop := stands l text \/ l = lex_init true text.

Lemma after_newline_snoc pre b acc : after_newline (pre ++ [b]) acc = if b =? NL then 0 else after_newline pre acc + 1.
Proof.
  revert acc. induction pre as [|x pre IH]; intros acc; cbn [app after_newline].
  - destruct (b =? NL); reflexivity.
  - destruct (x =? NL); apply IH.
Qed.
Lemma lines_snoc pre b : lines_before (pre ++ [b]) = lines_before pre + if b =? NL then 1 else 0.
Proof.
  unfold lines_before. rewrite count_occ_app. cbn [count_occ]. destruct (Z.eq_dec b NL) as [->|H].
  - rewrite Z.eqb_refl. lia.
  - destruct (Z.eqb_spec b NL); [tauto|]. lia.
Qed.

Definition byte_text (t : str) : Prop := Forall (fun b => 0 <= b < 256) t.

Lemma stands_read l text : byte_text text -> stands' l text -> stands (read_next l) text.
Proof.
  intros Bt [S|S].
  - destruct S as [Hf [pre [cur [E [A [Hl Hc]]]]]]. split; [rewrite read_next_file; auto|].
    destruct cur as [|b cur].
    + exists pre, []. destruct A as [A1 A2]. unfold read_next. rewrite A1, A2. cbn. auto.
    + exists (pre ++ [b]), cur. split; [rewrite <- app_assoc; auto|].
      split; [eapply read_next_at; eauto|]. destruct A as [A1 A2]. rewrite Hf in A1. cbn in A1.
      assert (Hb : b <> EOF).
      { unfold byte_text in Bt. rewrite Forall_forall in Bt. specialize (Bt b). rewrite E in Bt.
        assert (0 <= b < 256) by (apply Bt, in_or_app; right; left; auto). unfold EOF. lia. }
      rewrite lines_snoc, after_newline_snoc. unfold read_next. rewrite A1. destruct (Z.eqb_spec b NL) as [Hn|Hn].
      * destruct (inp l); cbn [line col]; lia.
      * destruct (Z.eqb_spec b EOF); [tauto|]. destruct (inp l); cbn [negb line col]; lia.
  - subst l. split; [apply read_next_file|]. exists [], text. split; [reflexivity|].
    split; [apply (read_next_at _ 32); split; reflexivity|]. unfold read_next. cbn [lex_init inp lc].
    destruct text; cbn; auto.
Qed.

Lemma skip_comment_stands f text : byte_text text -> forall l l', stands l text -> skip_comment f l = Some l' -> stands l' text.
Proof.
  intros Bt. induction f as [|f IH]; intros l l' S H; [discriminate|]. cbn [skip_comment] in H.
  destruct (negb (lc l =? EOF) && negb (lc l =? NL)); [|congruence].
  eapply IH; [|exact H]. apply stands_read; auto. left; auto.
Qed.

Lemma skip_blank_stands ub f text : byte_text text -> forall l l', stands' l text -> skip_blank ub f l = Some l' ->
  stands l' text /\ isspace ub (lc l') = false /\ lc l' <> hash.
Proof.
  intros Bt. induction f as [|f IH]; intros l l' S H; [discriminate|]. cbn [skip_blank] in H.
  destruct (isspace ub (lc l) || (lc l =? hash)) eqn:E.
  - pose proof (stands_read l text Bt S) as S1. destruct (lc l =? hash).
    + destruct (skip_comment f (read_next l)) as [l2|] eqn:E2; [|discriminate].
      eapply IH; [|exact H]. left. eapply skip_comment_stands; eauto.
    + eapply IH; [|exact H]. left; auto.
  - injection H as <-. apply orb_false_iff in E. destruct E as [E1 E2]. apply Z.eqb_neq in E2.
    destruct S as [S | ->]; [auto|]. discriminate.
Qed.

Lemma quoted_run_stands f text : byte_text text -> forall l w l' w', stands l text -> quoted_run f l w = Some (l', w') -> stands l' text.
Proof.
  intros Bt. induction f as [|f IH]; intros l w l' w' S H; [discriminate|]. cbn [quoted_run] in H.
  destruct (negb (lc l =? EOF) && negb (lc l =? quote)); [|congruence].
  eapply IH; [|exact H]. apply stands_read; auto. left; auto.
Qed.
Lemma quoted_word_stands f text : byte_text text -> forall l w l' w', stands l text -> quoted_word f l w = Some (l', w') -> stands l' text.
Proof.
  intros Bt. induction f as [|f IH]; intros l w l' w' S H; [discriminate|]. cbn [quoted_word] in H.
  destruct (quoted_run f (read_next l) w) as [[l1 w1]|] eqn:E; [|discriminate].
  assert (S1 : stands (read_next l1) text).
  { apply stands_read; auto. left. eapply quoted_run_stands; [auto| |exact E]. apply stands_read; auto. left; auto. }
  destruct (lc (read_next l1) =? quote); [|congruence]. eapply IH; [|exact H]. auto.
Qed.
Lemma plain_word_stands ub f text : byte_text text -> forall l w l' w', stands l text -> plain_word ub f l w = Some (l', w') -> stands l' text.
Proof.
  intros Bt. induction f as [|f IH]; intros l w l' w' S H; [discriminate|]. cbn [plain_word] in H.
  destruct (is_word_char ub (lc l)); [|congruence].
  eapply IH; [|exact H]. apply stands_read; auto. left; auto.
Qed.

(** A word starts with the quote or its own first character. *)
Lemma plain_word_prefix ub f : forall l w l' w', plain_word ub f l w = Some (l', w') -> exists v, w' = v ++ w.
Proof.
  induction f as [|f IH]; intros l w l' w' H; [discriminate|]. cbn [plain_word] in H.
  destruct (is_word_char ub (lc l)); [|injection H as <- <-; exists []; reflexivity].
  destruct (IH _ _ _ _ H) as [v ->]. exists (v ++ [lc l]). rewrite <- app_assoc. reflexivity.
Qed.

(** Specification: how a token can start. *)
Definition starts (t : token) (cur : str) : Prop :=
  match t, cur with
  | TEnd, [] => True
  | TEnd, b :: _ => b = 0
  | TPunct c, b :: _ => b = c
  | TWord w, b :: _ => b = quote \/ exists v, w = b :: v
  | _, _ => False
  end.

Lemma yylex_stands ub l text t x y l' : byte_text text -> stands' l text -> yylex ub l = Some (t, x, y, l') ->
  (t <> TEnd -> stands l' text) /\
  exists pre cur, text = pre ++ cur /\ starts t cur /\ x = 1 + lines_before pre /\ y = 1 + after_newline pre 0.
Proof.
  intros Bt S. unfold yylex. destruct (skip_blank ub _ l) as [l1|] eqn:E1; [|discriminate].
  destruct (skip_blank_stands _ _ _ Bt _ _ S E1) as [S1 [Sp Sh]].
  pose proof S1 as [Hf [pre [cur [E [A [Hl Hc]]]]]].
  assert (Hb : forall b r, cur = b :: r -> 0 <= b < 256).
  { intros b r ->. unfold byte_text in Bt. rewrite Forall_forall in Bt. apply Bt. rewrite E. apply in_or_app. right. left. auto. }
  destruct (Z.eqb_spec (lc l1) EOF) as [Ee|Ee].
  - intros [= <- <- <- <-]. split; [congruence|]. exists pre, cur. split; [auto|]. split; [|auto].
    destruct cur as [|b cur]; cbn; auto. destruct A as [A _]. rewrite Hf in A. cbn in A. specialize (Hb b cur eq_refl). unfold EOF in *. lia.
  - destruct cur as [|b cur]; [destruct A; tauto|]. destruct A as [A1 A2]. rewrite Hf in A1. cbn [chr] in A1.
    destruct (is_punctuation (lc l1)) eqn:Ep.
    + intros [= <- <- <- <-]. split; [intros _; apply stands_read; auto; left; auto|].
      exists pre, (b :: cur). split; [auto|]. split; [|auto]. destruct (Z.eqb_spec (lc l1) 0); cbn; congruence.
    + destruct (Z.eqb_spec (lc l1) quote) as [Eq|Eq].
      * destruct (quoted_word _ l1 []) as [[l2 w]|] eqn:Ew; [|discriminate]. intros [= <- <- <- <-].
        split; [intros _; eapply quoted_word_stands; eauto|].
        exists pre, (b :: cur). split; [auto|]. split; [|auto]. left. congruence.
      * destruct (plain_word ub _ l1 []) as [[l2 w]|] eqn:Ew; [|discriminate]. intros [= <- <- <- <-].
        split; [intros _; eapply plain_word_stands; eauto|].
        exists pre, (b :: cur). split; [auto|]. split; [|auto]. right.
        set (F := Datatypes.S (length (inp l))) in Ew. cbn [plain_word] in Ew.
        assert (Wc : is_word_char ub (lc l1) = true).
        { unfold is_word_char. rewrite Sp, Ep. destruct (Z.eqb_spec (lc l1) quote); [tauto|].
          destruct (Z.eqb_spec (lc l1) hash); [tauto|]. reflexivity. }
        rewrite Wc in Ew. destruct (plain_word_prefix _ _ _ _ _ _ Ew) as [v ->].
        rewrite rev_app_distr. cbn [rev app map]. rewrite A1. specialize (Hb b cur eq_refl). rewrite Z.mod_small by lia.
        cbn [c_string]. destruct (Z.eqb_spec b 0) as [E0|]; [|eauto].
        exfalso. rewrite A1, E0 in Ep. discriminate.
Qed.

(** Every token of a file carries the line and column of its first character. *)
Theorem token_locations_exact ub text ts : byte_text text -> tokens ub true text = Some ts ->
  forall t x y, In (t, x, y) ts ->
  exists pre cur, text = pre ++ cur /\ starts t cur /\ x = 1 + lines_before pre /\ y = 1 + after_newline pre 0.
Proof.
  intros Bt. unfold tokens.
  assert (H : forall fuel l ts, stands' l text -> lex_all ub fuel l = Some ts -> forall t x y, In (t, x, y) ts ->
     exists pre cur, text = pre ++ cur /\ starts t cur /\ x = 1 + lines_before pre /\ y = 1 + after_newline pre 0).
  { clear ts. induction fuel as [|f IH]; intros l ts S E t x y Hi; [discriminate|]. cbn [lex_all] in E.
    destruct (yylex ub l) as [[[[t0 x0] y0] l0]|] eqn:Ey; [|discriminate].
    destruct (yylex_stands _ _ _ _ _ _ _ Bt S Ey) as [S0 L0].
    destruct t0 as [|c|w].
    - injection E as <-. destruct Hi as [[= <- <- <-]|[]]. exact L0.
    - destruct (lex_all ub f l0) as [ts0|] eqn:Er; [|discriminate]. injection E as <-.
      destruct Hi as [[= <- <- <-]|Hi]; [exact L0|]. eapply IH; [left; apply S0; discriminate|exact Er|exact Hi].
    - destruct (lex_all ub f l0) as [ts0|] eqn:Er; [|discriminate]. injection E as <-.
      destruct Hi as [[= <- <- <-]|Hi]; [exact L0|]. eapply IH; [left; apply S0; discriminate|exact Er|exact Hi]. }
  intros E. eapply H; [right; reflexivity|exact E].
Qed.

(** ** The lexer terminates on every input (the fuel of the model is enough). *)
Definition left_ (l : lex) : nat := (length (inp l) + if (lc l =? EOF)%Z then 0 else 1)%nat.
Lemma left_read l : (left_ (read_next l) <= left_ l)%nat /\ (lc l <> EOF -> (left_ (read_next l) < left_ l)%nat).
Proof.
  unfold left_, read_next. destruct (Z.eqb_spec (lc l) EOF) as [E|E].
  - rewrite E. replace (EOF =? NL) with false by reflexivity. destruct (inp l) as [|b r]; cbn [lc inp length].
    + cbn. split; [lia|tauto].
    + replace (EOF =? EOF) with true by reflexivity. cbn [negb lc inp length].
      split; [|tauto]. match goal with |- context [if ?c then _ else _] => destruct c end; lia.
  - destruct (inp l) as [|b r]; destruct (lc l =? NL); cbn [negb lc inp length];
      repeat match goal with |- context [if ?c then _ else _] => destruct c eqn:? end; split; intros; try lia; try discriminate.
Qed.

Lemma skip_comment_total f : forall l, (left_ l < f)%nat -> exists l', skip_comment f l = Some l' /\ (left_ l' <= left_ l)%nat.
Proof.
  induction f as [|f IH]; intros l L; [lia|]. cbn [skip_comment].
  destruct (Z.eqb_spec (lc l) EOF) as [E|E]; cbn [negb andb]; [eauto|].
  destruct (negb (lc l =? NL)); [|eauto]. pose proof (left_read l) as [_ Lr]. specialize (Lr E).
  destruct (IH (read_next l)) as [l' [E1 L1]]; [lia|]. exists l'. split; [auto|lia].
Qed.
Lemma skip_blank_total ub f : forall l, (left_ l < f)%nat -> exists l', skip_blank ub f l = Some l' /\ (left_ l' <= left_ l)%nat.
Proof.
  induction f as [|f IH]; intros l L; [lia|]. cbn [skip_blank].
  destruct (isspace ub (lc l) || (lc l =? hash)) eqn:B; [|eauto].
  assert (E : lc l <> EOF). { intros E. rewrite E in B. discriminate. }
  pose proof (left_read l) as [_ Lr]. specialize (Lr E).
  destruct (lc l =? hash).
  - destruct (skip_comment_total f (read_next l)) as [l2 [E2 L2]]; [lia|]. rewrite E2.
    destruct (IH l2) as [l' [E1 L1]]; [lia|]. exists l'. split; [auto|lia].
  - destruct (IH (read_next l)) as [l' [E1 L1]]; [lia|]. exists l'. split; [auto|lia].
Qed.
Lemma quoted_run_total f : forall l w, (left_ l < f)%nat -> exists r, quoted_run f l w = Some r /\ (left_ (fst r) <= left_ l)%nat.
Proof.
  induction f as [|f IH]; intros l w L; [lia|]. cbn [quoted_run].
  destruct (Z.eqb_spec (lc l) EOF) as [E|E]; cbn [negb andb]; [eexists; split; [reflexivity|cbn; lia]|].
  destruct (negb (lc l =? quote)); [|eexists; split; [reflexivity|cbn; lia]]. pose proof (left_read l) as [_ Lr]. specialize (Lr E).
  destruct (IH (read_next l) (lc l :: w)) as [l' [E1 L1]]; [lia|]. exists l'. split; [auto|lia].
Qed.
Lemma quoted_word_total f : forall l w, lc l = quote -> (left_ l < f)%nat -> exists r, quoted_word f l w = Some r /\ (left_ (fst r) < left_ l)%nat.
Proof.
  induction f as [|f IH]; intros l w Q L; [lia|]. cbn [quoted_word].
  pose proof (left_read l) as [_ Lr]. specialize (Lr ltac:(rewrite Q; discriminate)).
  destruct (quoted_run_total f (read_next l) w) as [[l1 w1] [E1 L1]]; [lia|]. cbn [fst] in L1. rewrite E1.
  pose proof (left_read l1) as [Lr1 _].
  destruct (Z.eqb_spec (lc (read_next l1)) quote) as [E|E].
  - destruct (IH (read_next l1) (quote :: w1) E) as [r [E2 L2]]; [lia|]. exists r. split; [auto|lia].
  - eexists. split; [reflexivity|]. cbn [fst]. lia.
Qed.
Lemma plain_word_total ub f : forall l w, (left_ l < f)%nat -> exists r, plain_word ub f l w = Some r /\ (left_ (fst r) <= left_ l)%nat /\
  (is_word_char ub (lc l) = true -> (left_ (fst r) < left_ l)%nat).
Proof.
  induction f as [|f IH]; intros l w L; [lia|]. cbn [plain_word].
  destruct (is_word_char ub (lc l)) eqn:W; [|eexists; split; [reflexivity|cbn; split; [lia|discriminate]]].
  destruct (word_char_facts _ _ W) as [_ [_ [_ [_ E]]]]. pose proof (left_read l) as [_ Lr]. specialize (Lr E).
  destruct (IH (read_next l) (lc l :: w)) as [r [E1 [L1 _]]]; [lia|]. exists r. split; [auto|lia].
Qed.

Lemma yylex_total ub l : exists t x y l', yylex ub l = Some (t, x, y, l') /\ (t = TEnd \/ (left_ l' < left_ l)%nat).
Proof.
  unfold yylex. assert (L : (left_ l < S (S (length (inp l))))%nat) by (unfold left_; destruct (lc l =? EOF); lia).
  destruct (skip_blank_total ub _ l L) as [l1 [E1 L1]]. rewrite E1.
  destruct (Z.eqb_spec (lc l1) EOF) as [E|E]; [do 4 eexists; split; [reflexivity|auto]|].
  pose proof (left_read l1) as [_ Lr]. specialize (Lr E).
  destruct (is_punctuation (lc l1)) eqn:P; [do 4 eexists; split; [reflexivity|right; lia]|].
  destruct (Z.eqb_spec (lc l1) quote) as [Q|Q].
  - destruct (quoted_word_total (S (S (length (inp l)))) l1 [] Q) as [[l2 w] [E2 L2]]; [lia|]. rewrite E2.
    do 4 eexists. split; [reflexivity|]. cbn [fst] in L2. right. lia.
  - destruct (plain_word_total ub (S (S (length (inp l)))) l1 []) as [[l2 w] [E2 [L2 L3]]]; [lia|]. rewrite E2.
    do 4 eexists. split; [reflexivity|]. cbn [fst] in *. right.
    assert (Wc : is_word_char ub (lc l1) = true).
    { unfold is_word_char. rewrite P.
      assert (B : isspace ub (lc l1) = false /\ lc l1 <> hash).
      { clear -E1. remember (S (S (length (inp l)))) as f eqn:Ef. clear Ef. revert l E1. induction f as [|f IH]; intros l E1; [discriminate|]. cbn [skip_blank] in E1.
        destruct (isspace ub (lc l) || (lc l =? hash)) eqn:B.
        - destruct (lc l =? hash); [destruct (skip_comment f (read_next l)); [|discriminate]|]; eauto.
        - injection E1 as <-. apply orb_false_iff in B. destruct B as [B1 B2]. apply Z.eqb_neq in B2. auto. }
      destruct B as [-> B2]. destruct (Z.eqb_spec (lc l1) quote); [tauto|]. destruct (Z.eqb_spec (lc l1) hash); tauto. }
    specialize (L3 Wc). lia.
Qed.

Theorem lex_total ub file text : exists ts, tokens ub file text = Some ts.
Proof.
  unfold tokens.
  assert (H : forall fuel l, (left_ l < fuel)%nat -> exists ts, lex_all ub fuel l = Some ts).
  { induction fuel as [|f IH]; intros l L; [lia|]. cbn [lex_all].
    destruct (yylex_total ub l) as [t [x [y [l' [E [-> |Lt]]]]]]; rewrite E; [eauto|].
    destruct (IH l') as [ts Ets]; [lia|]. rewrite Ets. destruct t; eauto. }
  apply H. unfold left_. cbn. lia.
Qed.

Example location_example : exists ts, tokens (fun _ => false) true [10; 35; 39; 10; 32; 65; 39; 10; 39; 64] = Some ts /\
  In (TPunct 64, 4, 2) ts /\ In (TWord [65], 3, 2) ts.
Proof. eexists. split; [reflexivity|]. cbn. auto. Qed.

Example plain_path_example : plain_path (fun _ => false) [mk_name [67; 111; 114; 101] Normal; mk_name [206; 187] Normal].
Proof. repeat constructor; cbn; try lia; discriminate. Qed.
