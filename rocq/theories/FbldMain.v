(** * The fbld program: from its files to its output. *)
From Coq Require Import ZArith String Ascii List Arith Lia Bool.
From Verif Require Import FbldModel FbldSpec FbldMem FbldSafe FbldOps FbldMemProps FbldProps FbldParse FbldGrammar FbldParseProps.
Import ListNotations.
Local Open Scope list_scope.
Notation length := List.length.
Notation bind := FbldModel.bind.

(** ** The program *)

(** fbld/markup.c:226-232: the elements one after the other, until one fails. *)
Definition print_each (go : option nat -> out (text * bool)) : list (option nat) -> out (text * bool) :=
  fix each (ks : list (option nat)) : out (text * bool) :=
    match ks with
    | [] => Ok ([], true)
    | k :: r =>
      do (t, b) <- go k;
      if b then do (u, c) <- each r; Ok (t ++ u, c) else Ok (t, false)
    end.
(** fbld/markup.c:211-238 FbldPrintMarkup: what is written to the standard output, and the result.
    The message on the standard error is left out. *)
Fixpoint print_of (f : nat) (h : heap) (p : option nat) : out (text * bool) :=
  match f with
  | O => Stop Timeout
  | S f' =>
    do n <- deref h p;
    match n_tag n with
    | TPlain => Ok (n_text n, true)
    | TCommand => Ok ([], false)
    | TSequence => print_each (print_of f' h) (n_kids n)
    end
  end.
(** fbld/fbld.c:20-45 main, of the contents of the files: what is written to the standard output,
    the exit status, and the memory at the end.  The parser returns a document, put in memory all
    at once by [alloc]; the memory the parser itself uses and the file system are not modelled. *)
Definition fbld_main (f n : nat) (inputs : list text) : out (text * nat * heap) :=
  do y <- fbld_parse f inputs;
  match y with
  | None => Ok ([], 1, no_memory)
  | Some d =>
    let (h, a) := alloc no_memory d in
    do (h1, p) <- fbld_eval f n h (Some a);
    do h2 <- free f h1 (Some a);
    match p with
    | None => Ok ([], 1, h2)
    | Some _ =>
      do (t, b) <- print_of f h2 p;
      do h3 <- free f h2 p;
      Ok (t, if b then 0 else 1, h3)
    end
  end.

(** ** What it prints *)

(** The texts of a document up to the first command, and whether there is none. *)
Fixpoint printed (l : list (option text)) : text := match l with Some t :: r => t ++ printed r | _ => [] end.
Fixpoint all_text (l : list (option text)) : bool := match l with [] => true | Some _ :: r => all_text r | None :: _ => false end.

Lemma printed_app : forall l m, printed (l ++ m) = if all_text l then printed l ++ printed m else printed l.
Proof. induction l as [|[t|] l IH]; intros m; cbn; auto. rewrite IH. destruct (all_text l); auto. apply app_assoc. Qed.
Lemma all_text_app : forall l m, all_text (l ++ m) = all_text l && all_text m.
Proof. induction l as [|[t|] l IH]; intros m; cbn; auto. Qed.
Lemma print_tot : forall d h p, holds h p d -> tot (fun f => print_of f h p) (fun x => x = (printed (pieces d), all_text (pieces d))).
Proof.
  intros d. induction d as [t|x ds IH|ds IH] using doc_ind2; intros h p H; apply tot_S;
    [apply inv_plain in H; destruct H as [a [ks [rc [-> Ha]]]]|apply inv_command in H; destruct H as [a [ks [rc [-> [Ha F]]]]]|apply inv_sequence in H; destruct H as [a [tx0 [ks [rc [-> [Ha F]]]]]]];
    cbn [print_of deref]; unfold node_at; rewrite Ha; cbn [FbldModel.bind n_tag n_text n_kids pieces].
  - apply tot_ret. cbn. rewrite app_nil_r. auto.
  - apply tot_ret. auto.
  - clear Ha. induction F as [|k d ks ds K F IHF]; [apply tot_ret; auto|]. inversion IH as [|? ? H1 H2]; subst. cbn [print_each flat_map].
    eapply tot_bind; [apply (H1 h k K)|]. intros x ->. rewrite printed_app, all_text_app. destruct (all_text (pieces d)); cbn [andb].
    + eapply tot_bind; [apply (IHF H2)|]. intros x ->. apply tot_ret. auto.
    + apply tot_ret. auto.
Qed.

(** ** Memory safety *)
Definition null_time (w : stop) : Prop := w = Timeout \/ w = NullDeref.
Definition usual (w : stop) : Prop := w = Timeout \/ w = NullDeref \/ w = AssertFail.
Lemma print_ok : forall f h r re, inv h r re -> forall p, live h p -> post null_time (print_of f h p) (fun _ => True).
Proof.
  induction f as [|f IH]; intros h r re I p L; cbn [print_of]; [left; reflexivity|].
  destruct p as [a|]; [|right; reflexivity]. destruct L as [n H]. cbn [deref]. unfold node_at. rewrite H. cbn [FbldModel.bind].
  destruct (n_tag n); [exact Logic.I|exact Logic.I|].
  assert (LK : forall k, In k (n_kids n) -> live h k).
  { intros [k|] Ik; cbn; auto. eapply live_kid; eauto. }
  induction (n_kids n) as [|k ks IHk]; [exact Logic.I|]. cbn [print_each]. eapply post_bind; [eapply IH; eauto; apply LK; left; auto|].
  intros [t [|]] _; [|exact Logic.I]. eapply post_bind; [apply IHk; intros q Q; apply LK; right; auto|]. intros [u c] _. exact Logic.I.
Qed.
Lemma time_usual : forall w, timeout w -> usual w.
Proof. intros w ->. left. auto. Qed.
Definition ends_well (x : text * nat * heap) : Prop := let '(_, c, h) := x in (c = 0 \/ c = 1) /\ exact h none none /\ forall e, eh h e = None.
Lemma rest_ok : forall f n d, post usual (let (h, a) := alloc no_memory d in
    do (h1, p) <- fbld_eval f n h (Some a);
    do h2 <- free f h1 (Some a);
    match p with
    | None => Ok ([], 1, h2)
    | Some _ =>
      do (t, b) <- print_of f h2 p;
      do h3 <- free f h2 p;
      Ok (t, if b then 0 else 1, h3)
    end) ends_well.
Proof.
  intros f n d. pose proof (eval_document_safe f n d) as P. destruct (alloc no_memory d) as [h a].
  destruct (fbld_eval f n h (Some a)) as [[h1 p]|w]; cbn [bind]; [|exact P]. destruct P as [X [E _]]. apply exact_inv in X.
  assert (I1 : inv h1 (add (Some a) (add p none)) none).
  { eapply inv_ext; [exact X| |]; auto. intros b. rewrite plus_add. unfold add. rewrite plus_add. unfold add. lia. }
  assert (FIN : forall t c h', c = 0 \/ c = 1 -> inv h' none none -> ends_well (t, c, h')).
  { intros t c h' C I. split; auto. split; [apply exact_inv; exact I|]. eapply no_envs. exact I. }
  eapply post_bind; [eapply post_weak; [apply free_ok; exact I1|exact time_usual|intros y Q; exact Q]|]. intros h2 [I2 _].
  destruct p as [q|].
  - eapply post_bind; [eapply post_weak; [eapply print_ok; [exact I2|eapply live_add; exact I2]|intros w [Hw|Hw]; [left|right; left]; exact Hw|intros y Q; exact Q]|]. intros [t b] _.
    eapply post_bind; [eapply post_weak; [apply free_ok; exact I2|exact time_usual|intros y Q; exact Q]|]. intros h3 [I3 _]. cbn [post]. apply FIN; auto. destruct b; auto.
  - cbn [post]. apply FIN; auto.
Qed.

(** Whatever the files are and however many steps are allowed, the program touches no memory that
    has been freed and writes past no buffer; and if it ends otherwise than by a NULL pointer or an
    assertion, its status is 0 or 1 and nothing refers to any markup from outside, there are no
    environment entries and all counts are exact. *)
Theorem main_safe : forall f n inputs, text_files inputs -> length (concat inputs) + 2 <= f ->
  match fbld_main f n inputs with
  | Ok (t, c, h) => (c = 0 \/ c = 1) /\ exact h none none /\ forall e, eh h e = None
  | Stop w => w = Timeout \/ w = NullDeref \/ w = AssertFail
  end.
Proof.
  intros f n inputs T L. destruct (parse_finishes inputs T) as [y P]. unfold fbld_main. rewrite P by lia. cbn [bind].
  destruct y as [d|].
  - pose proof (rest_ok f n d) as R. match goal with |- match ?x with _ => _ end => set (X := x) in * end. destruct X as [[[t c] h]|w]; exact R.
  - split; auto. split; [apply exact_inv, no_memory_ok|]. reflexivity.
Qed.

(** ** What the program does *)
Lemma text_done : forall {A B} (x : nat -> out A) (k : nat -> A -> out B) (Q : B -> Prop) a f0, (forall f, f0 <= f -> x f = Ok a) -> tot (fun f => k f a) Q -> tot (fun f => bind (x f) (k f)) Q.
Proof. intros A B x k Q a f0 H K. eapply tot_bind with (P := fun b => b = a); [exists a, f0; auto|]. intros b ->. exact K. Qed.

(** The files of a document that means [v]: the program prints the texts of [v] up to the first
    command, ends with 0 if there is none and with 1 otherwise, and gives all its references back. *)
Theorem main_document : forall inputs d k v, (exists f1, forall f, f1 <= f -> fbld_parse f inputs = Ok (Some d)) -> eval k [] d = Value v ->
  exists f0 n0 h', (forall f n, f0 <= f -> n0 <= n -> fbld_main f n inputs = Ok (printed (pieces v), if all_text (pieces v) then 0 else 1, h')) /\
    exact h' none none /\ forall e, eh h' e = None.
Proof.
  intros inputs d k v [f1 P] E. unfold fbld_main.
  pose proof (alloc_ok d no_memory none none no_memory_ok) as Q. destruct (alloc no_memory d) as [h a] eqn:A. destruct Q as [I [_ H]].
  assert (X : exact h (plus (Some a) none) none) by (apply exact_inv; eapply inv_ext; [exact I| |]; auto; intros; symmetry; apply plus_add).
  destruct (eval_value h a _ _ d k v X H E) as [f2 [n0 [h1 [p [R [_ [V X1]]]]]]].
  assert (I1 : inv h1 (add (Some a) (add (Some p) none)) none).
  { apply exact_inv in X1. eapply inv_ext; [exact X1| |]; auto. intros b. rewrite plus_add. unfold add. rewrite plus_add. unfold add. lia. }
  assert (M : tot (fun f => do h2 <- free f h1 (Some a); do (t, b) <- print_of f h2 (Some p); do h3 <- free f h2 (Some p); Ok (t, if b then 0 else 1, h3))
     (fun x => fst x = (printed (pieces v), if all_text (pieces v) then 0 else 1) /\ inv (snd x) none none)).
  { eapply tot_bind; [apply free_tot; exact I1|]. intros h2 [I2 B2].
    assert (V2 : holds h2 (Some p) v) by (eapply holds_grow; [exact V|apply sub_grow; exact B2|exact I1|exact I2|eapply live_add; exact I2]).
    eapply tot_bind; [apply print_tot; exact V2|]. intros x ->. eapply tot_bind; [apply free_tot; exact I2|]. intros h3 [I3 _]. apply tot_ret. auto. }
  destruct M as [[y h3] [f3 [M [Y I3]]]]. cbn [fst snd] in *. subst y.
  exists (f1 + f2 + f3), n0, h3. split; [|split; [apply exact_inv; exact I3|eapply no_envs; exact I3]].
  intros f n Lf Ln. rewrite P by lia. cbn [bind]. rewrite A, R by lia. cbn [bind]. apply M. lia.
Qed.
(** In particular what is written in the sense of C57. *)
Theorem main_written : forall ds s inputs k v, w_doc ds s -> concat inputs = s -> Forall (fun t => t = [] \/ exists u, t = u ++ [10%Z]) inputs ->
  eval k [] (Sequence ds) = Value v ->
  exists f0 n0 h', (forall f n, f0 <= f -> n0 <= n -> fbld_main f n inputs = Ok (printed (pieces v), if all_text (pieces v) then 0 else 1, h')) /\
    exact h' none none /\ forall e, eh h' e = None.
Proof. intros ds s inputs k v W C E V. eapply main_document; [|exact V]. exists (length s + 2). intros f L. eapply written_is_read; eauto. Qed.
(** A file with a syntax error: nothing is printed and the status is 1. *)
Theorem main_bad_syntax : forall inputs f1, text_files inputs -> fbld_parse f1 inputs = Ok None -> length (concat inputs) + 2 <= f1 ->
  forall f n, length (concat inputs) + 2 <= f -> fbld_main f n inputs = Ok ([], 1, no_memory).
Proof.
  intros inputs f1 T P L1 f n L. destruct (parse_finishes inputs T) as [y Q]. rewrite (Q f1 L1) in P. injection P as ->. unfold fbld_main. rewrite (Q f L). reflexivity.
Qed.
(** A document with an error in the evaluation: nothing is printed and the status is 1, if the
    program ends at all. *)
Theorem main_error : forall inputs d k, (exists f1, forall f, f1 <= f -> fbld_parse f inputs = Ok (Some d)) -> eval k [] d = Error ->
  exists f0, forall f n t c h', f0 <= f -> fbld_main f n inputs = Ok (t, c, h') -> t = [] /\ c = 1.
Proof.
  intros inputs d k [f1 P] E. pose proof (alloc_ok d no_memory none none no_memory_ok) as Q. destruct (alloc no_memory d) as [h a] eqn:A. destruct Q as [I [_ H]].
  assert (X : exact h (plus (Some a) none) none) by (apply exact_inv; eapply inv_ext; [exact I| |]; auto; intros; symmetry; apply plus_add).
  destruct (eval_error h a _ _ d k X H E) as [f2 R]. exists (f1 + f2). intros f n t c h' L M. unfold fbld_main in M. rewrite P in M by lia. cbn [bind] in M. rewrite A in M.
  destruct (fbld_eval f n h (Some a)) as [[h1 p]|w] eqn:V; cbn [bind] in M; [|discriminate]. apply R in V; [|lia]. subst p.
  destruct (free f h1 (Some a)); cbn [bind] in M; [|discriminate]. injection M as <- <- _. auto.
Qed.
(** A document whose evaluation does not end: the program does not end. *)
Theorem main_endless : forall inputs d, (exists f1, forall f, f1 <= f -> fbld_parse f inputs = Ok (Some d)) -> (forall k, eval k [] d = Deep) ->
  forall n, exists f0, forall f, f0 <= f -> fbld_main f n inputs = Stop Timeout.
Proof.
  intros inputs d [f1 P] E n. pose proof (alloc_ok d no_memory none none no_memory_ok) as Q. destruct (alloc no_memory d) as [h a] eqn:A. destruct Q as [I [_ H]].
  assert (X : exact h (plus (Some a) none) none) by (apply exact_inv; eapply inv_ext; [exact I| |]; auto; intros; symmetry; apply plus_add).
  destruct (eval_endless h a _ _ d X H E n) as [f2 R]. exists (f1 + f2). intros f L. unfold fbld_main. rewrite P by lia. cbn [bind]. rewrite A, R by lia. reflexivity.
Qed.

Lemma main_shape : forall f n inputs x, fbld_main f n inputs = Ok x ->
  x = ([], 1, no_memory) \/ exists d, fbld_parse f inputs = Ok (Some d) /\ exists h1 p, fbld_eval f n (fst (alloc no_memory d)) (Some (snd (alloc no_memory d))) = Ok (h1, p) /\ (p = None -> snd (fst x) = 1).
Proof.
  intros f n inputs x M. unfold fbld_main in M. destruct (fbld_parse f inputs) as [[d|]|w] eqn:P; cbn [bind] in M; try discriminate.
  - right. exists d. split; auto. destruct (alloc no_memory d) as [h a]. cbn [fst snd]. destruct (fbld_eval f n h (Some a)) as [[h1 p]|w]; cbn [bind] in M; [|discriminate]. exists h1, p. split; auto.
    intros ->. destruct (free f h1 (Some a)); cbn [bind] in M; [|discriminate]. injection M as <-. auto.
  - injection M as <-. auto.
Qed.
(** And when the status is 0: the files are those of a document, which means a document made of texts
    only, and these are what is printed. *)
Theorem main_complete : forall inputs n f0 t h', text_files inputs -> (forall f, f0 <= f -> fbld_main f n inputs = Ok (t, 0, h')) ->
  exists d k v, fbld_parse (length (concat inputs) + 2) inputs = Ok (Some d) /\ eval k [] d = Value v /\ ~ In None (pieces v) /\ t = printed (pieces v).
Proof.
  intros inputs n f0 t h' T M. destruct (parse_finishes inputs T) as [y P]. set (fp := length (concat inputs) + 2) in *.
  destruct y as [d|].
  2: { specialize (M (f0 + fp) ltac:(lia)). unfold fbld_main in M. rewrite P in M by lia. discriminate. }
  assert (PE : exists f1, forall f, f1 <= f -> fbld_parse f inputs = Ok (Some d)) by (exists fp; exact P).
  destruct (eval n [] d) as [v| | |] eqn:E.
  - destruct (main_document inputs d n v PE E) as [f1 [n1 [h1 [R _]]]]. exists d, n, v. split; [apply P; lia|]. split; auto.
    assert (Q : fbld_main (f0 + f1) (n + n1) inputs = Ok (t, 0, h')).
    { pose proof (M (f0 + f1) ltac:(lia)) as Z. unfold fbld_main in *. destruct (fbld_parse (f0 + f1) inputs) as [[d1|]|w]; cbn [bind] in *; auto.
      destruct (alloc no_memory d1) as [h a]. destruct (fbld_eval (f0 + f1) n h (Some a)) as [x|w] eqn:V; cbn [bind] in Z; [|discriminate]. rewrite (eval_more _ _ n1 _ _ _ V). exact Z. }
    rewrite R in Q by lia. injection Q as <- C _. split; auto. intros IN. assert (all_text (pieces v) = false) as N; [|rewrite N in C; discriminate].
    clear - IN. induction (pieces v) as [|[t|] l IH]; cbn in *; [destruct IN| |auto]. destruct IN as [IN|IN]; [discriminate|auto].
  - destruct (main_error inputs d n PE E) as [f1 R]. destruct (R (f0 + f1) n _ _ _ ltac:(lia) (M (f0 + f1) ltac:(lia))). discriminate.
  - exfalso. pose proof (alloc_ok d no_memory none none no_memory_ok) as Q. destruct (alloc no_memory d) as [h a] eqn:A. destruct Q as [I [_ H]].
    assert (X : exact h (plus (Some a) none) none) by (apply exact_inv; eapply inv_ext; [exact I| |]; auto; intros; symmetry; apply plus_add).
    destruct (eval_assert h a _ _ d n X H E) as [f1 [n1 R]]. specialize (M (f0 + f1 + fp) ltac:(lia)). unfold fbld_main in M. rewrite P in M by lia. cbn [bind] in M. rewrite A in M.
    destruct (fbld_eval (f0 + f1 + fp) n h (Some a)) as [x|w] eqn:V; cbn [bind] in M; [|discriminate]. apply eval_more with (m := n1) in V. rewrite R in V by lia. discriminate.
  - exfalso. pose proof (alloc_ok d no_memory none none no_memory_ok) as Q. destruct (alloc no_memory d) as [h a] eqn:A. destruct Q as [I [_ H]].
    assert (X : exact h (plus (Some a) none) none) by (apply exact_inv; eapply inv_ext; [exact I| |]; auto; intros; symmetry; apply plus_add).
    destruct (deep_run h a _ _ d X H n E) as [f1 R]. specialize (M (f0 + f1 + fp) ltac:(lia)). unfold fbld_main in M. rewrite P in M by lia. cbn [bind] in M. rewrite A, R in M by lia. discriminate.
Qed.

(** ** Examples *)
(** A program with definitions, one of them of [.block]; one whose result has a command; one with an
    error; one with a syntax error; and one that does not end. *)
Definition prog_calls : text := T "@define[.block][x] @x @@|@define[foo][x y] <@x-@y> @@|@foo[a][@tail[qzz]]|some text||@foo b| c|".
Definition prog_command : text := T "@define[.block][x] @x @@|@define[w][x] <@x> @@|some @w[b] @zz[c]d|".
Definition prog_error : text := T "@define[f][x] @x @@|@f[@error[x]]|".
Definition prog_syntax : text := T "@foo{a|".
Definition prog_endless : text := T "@define[f][] @f @@|@f|".
Definition run_main (s : text) : option (text * nat * list nat) :=
  match fbld_main 200 200 [s] with Ok (t, c, h) => Some (t, c, live_marks h) | Stop _ => None end.
Example ex_main : map run_main [prog_calls; prog_command; prog_error; prog_syntax; prog_endless] =
  [Some (T "<a-zz>some text|<b-c|>", 0, []); Some (T "some <b> ", 1, []); Some ([], 1, []); Some ([], 1, []); None].
Proof. vm_compute. reflexivity. Qed.
Lemma a_text_file : forall u, ~ In 3%Z (u ++ [10%Z]) -> (forall r, u ++ [10%Z] <> 32%Z :: 10%Z :: r) -> text_files [u ++ [10%Z]].
Proof. intros u N S. split; [constructor; [right; eauto|constructor]|]. cbn [concat]. rewrite app_nil_r. auto. Qed.
Lemma all_fuel : forall inputs y, text_files inputs -> fbld_parse (length (concat inputs) + 2) inputs = Ok y -> forall f, length (concat inputs) + 2 <= f -> fbld_parse f inputs = Ok y.
Proof. intros inputs y T P f L. destruct (parse_finishes inputs T) as [z Q]. rewrite Q in P by lia. injection P as <-. apply Q. exact L. Qed.
Example ex_files : forall s, In s [prog_calls; prog_command; prog_error; prog_syntax; prog_endless] -> text_files [s].
Proof.
  assert (K : forall s, last s 0%Z = 10%Z -> existsb (Z.eqb 3) s = false -> (forall r, s <> 32%Z :: 10%Z :: r) -> text_files [s]).
  { intros s L N S. assert (E : s = removelast s ++ [10%Z]) by (rewrite <- L; apply app_removelast_last; intros ->; discriminate L). rewrite E in *. apply a_text_file; auto.
    intros I. rewrite <- E in *. assert (existsb (Z.eqb 3) s = true) by (apply existsb_exists; exists 3%Z; auto). congruence. }
  intros s I. cbn [In] in I. destruct I as [<-|[<-|[<-|[<-|[<-|[]]]]]]; apply K; try (vm_compute; reflexivity); intros r; discriminate.
Qed.
(** The first one meets the hypotheses of [main_document], [main_safe] and [main_complete]. *)
Example ex_document : exists d k v, (exists f1, forall f, f1 <= f -> fbld_parse f [prog_calls] = Ok (Some d)) /\ eval k [] d = Value v /\ printed (pieces v) = T "<a-zz>some text|<b-c|>" /\ all_text (pieces v) = true.
Proof.
  assert (P : exists d, fbld_parse (length (concat [prog_calls]) + 2) [prog_calls] = Ok (Some d) /\ exists v, eval 50 [] d = Value v /\ printed (pieces v) = T "<a-zz>some text|<b-c|>" /\ all_text (pieces v) = true).
  { eexists. split; [vm_compute; reflexivity|]. eexists. split; [vm_compute; reflexivity|]. split; vm_compute; reflexivity. }
  destruct P as [d [P [v V]]]. exists d, 50, v. split; auto. exists (length (concat [prog_calls]) + 2). intros f L. apply all_fuel; auto. apply ex_files. left. reflexivity.
Qed.
(** The third one meets those of [main_error], the fourth those of [main_bad_syntax]. *)
Example ex_error : exists d k, (exists f1, forall f, f1 <= f -> fbld_parse f [prog_error] = Ok (Some d)) /\ eval k [] d = Error.
Proof.
  assert (P : exists d, fbld_parse (length (concat [prog_error]) + 2) [prog_error] = Ok (Some d) /\ eval 50 [] d = Error) by (eexists; split; [vm_compute; reflexivity|vm_compute; reflexivity]).
  destruct P as [d [P V]]. exists d, 50. split; auto. exists (length (concat [prog_error]) + 2). intros f L. apply all_fuel; auto. apply ex_files. cbn. auto.
Qed.
Example ex_syntax : text_files [prog_syntax] /\ fbld_parse 100 [prog_syntax] = Ok None.
Proof. split; [apply ex_files; cbn; auto|vm_compute; reflexivity]. Qed.
(** And one written in the sense of C57, in two files that end at a new line. *)
Example ex_written : w_doc ex_rounds_doc ex_rounds /\ concat [firstn 15 ex_rounds; skipn 15 ex_rounds] = ex_rounds /\ last (firstn 15 ex_rounds) 0%Z = 10%Z /\ exists v, eval 9 [] (Sequence ex_rounds_doc) = Value v.
Proof. split; [exact ex_rounds_written|]. split; [vm_compute; reflexivity|]. split; [vm_compute; reflexivity|]. eexists. vm_compute. reflexivity. Qed.

Print Assumptions main_safe.
Print Assumptions main_document.
Print Assumptions main_written.
Print Assumptions main_bad_syntax.
Print Assumptions main_error.
Print Assumptions main_endless.
Print Assumptions main_complete.
