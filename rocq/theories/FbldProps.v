(** * C55: the fbld evaluator computes what the language means. *)
From Coq Require Import ZArith String Ascii List Arith Lia Bool.
From Verif Require Import FbldModel FbldSpec FbldMem FbldSafe FbldOps FbldSim FbldSim2 FbldSim3 FbldSim4 FbldSim5 FbldMemProps.
Import ListNotations.
Local Open Scope list_scope.
Notation length := List.length.
Notation bind := FbldModel.bind.

(** ** The loop *)
Lemma steps_done : forall f k s, stack s = [] -> steps f k s = Ok s.
Proof. intros f. induction k as [|k IH]; intros s E; cbn [steps]; auto. unfold step. rewrite E. cbn [bind]. auto. Qed.
Lemma run_steps : forall f n k s s1, steps f k s = Ok s1 -> run f (k + n) s = run f n s1.
Proof.
  intros f n. induction k as [|k IH]; intros s s1 H; cbn [steps Nat.add] in *; [injection H as <-; auto|].
  destruct (stack s) as [|c r] eqn:E.
  - assert (S1 : step f s = Ok s) by (unfold step; rewrite E; auto). rewrite S1 in H. cbn [bind] in H. rewrite steps_done in H by auto. injection H as <-. cbn [run]. rewrite E. destruct n; cbn [run]; rewrite E; auto.
  - cbn [run]. rewrite E. destruct (step f s) as [s2|w]; cbn [bind] in *; [auto|discriminate].
Qed.
Lemma run_stops : forall f n k s w, steps f k s = Stop w -> run f (k + n) s = Stop w.
Proof.
  intros f n. induction k as [|k IH]; intros s w H; cbn [steps Nat.add] in *; [discriminate|].
  destruct (stack s) as [|c r] eqn:E.
  - assert (S1 : step f s = Ok s) by (unfold step; rewrite E; auto). rewrite S1 in H. cbn [bind] in H. rewrite steps_done in H by auto. discriminate.
  - cbn [run]. rewrite E. destruct (step f s) as [s2|w2]; cbn [bind] in *; [auto|congruence].
Qed.
Lemma run_short : forall f k n s s1, steps f k s = Ok s1 -> stack s1 <> [] -> n <= k -> run f n s = Stop Timeout.
Proof.
  intros f. induction k as [|k IH]; intros n s s1 H N L.
  - cbn in H. injection H as <-. destruct n; [|lia]. cbn [run]. destruct (stack s); [congruence|auto].
  - cbn [steps] in H. destruct (stack s) as [|c r] eqn:E.
    + assert (S1 : step f s = Ok s) by (unfold step; rewrite E; auto). rewrite S1 in H. cbn [bind] in H. rewrite steps_done in H by auto. injection H as <-. congruence.
    + destruct n as [|n]; cbn [run]; rewrite E; auto. destruct (step f s) as [s2|w]; cbn [bind] in *; [|discriminate]. eapply IH; eauto. lia.
Qed.
Lemma run_more : forall f n m s s1, n <= m -> run f n s = Ok s1 -> run f m s = Ok s1.
Proof.
  intros f. induction n as [|n IH]; intros m s s1 L H; cbn [run] in H; destruct (stack s) eqn:E; try (injection H as <-; destruct m; cbn [run]; rewrite E; auto; fail); [discriminate|].
  destruct m as [|m]; [lia|]. cbn [run]. rewrite E. destruct (step f s) as [s2|w]; cbn [bind] in *; [|discriminate]. apply IH; auto. lia.
Qed.

Section Eval.
Variables (h : heap) (m : nat) (r re : nat -> nat) (d : doc).
Hypothesis X : exact h r re.
Hypothesis H : holds h (Some m) d.

Lemma start_top : exists s0, start h (Some m) = Ok s0 /\ FbldSim.top_eval r re s0 (mk_cmd 0 DResult KEval [Some m] None) [] [] d.
Proof.
  pose proof X as I. apply exact_inv in I. pose proof (holds_live _ _ _ H) as L.
  pose proof (start_ok r re h (Some m) I L) as S0. destruct (start h (Some m)) as [s0|w]; cbn [post] in S0; [|destruct S0].
  destruct S0 as [W0 [G0 [E0 [K0 [R0 A0]]]]]. exists s0. split; auto. split; auto. split; auto. split; auto. split; auto. split; [|constructor].
  exists (Some m). split; auto. eapply holds_grow; [exact H|exact G0|exact I|apply (w_inv _ _ _ _ _ _ W0)|].
  eapply live_stack; [exact W0|rewrite K0; left; reflexivity|left; reflexivity].
Qed.

Lemma value_run : forall k v, eval k [] d = Value v -> exists f0 n0 h' p, (forall f n, f0 <= f -> n0 <= n -> fbld_eval f n h (Some m) = Ok (h', Some p)) /\ holds h' (Some p) v.
Proof.
  intros k v E. destruct start_top as [s0 [S0 T]]. pose proof (sim_all r re k _ _ _ _ _ T) as O. rewrite E in O. cbn [outcome c_dest] in O.
  destruct O as [j [s1 [f0 [O1 [W1 [E1 [EV [_ [p [Hp V]]]]]]]]]]. cbn [got] in Hp. destruct p as [a|]; [|inversion V].
  assert (K1 : stack s1 = []) by (destruct EV as [_ [_ F]]; inversion F; auto).
  exists f0, j, (hp s1), a. split; auto. intros f n Lf Ln. unfold fbld_eval. rewrite S0. cbn [FbldModel.bind].
  replace n with (j + (n - j)) by lia. erewrite run_steps by (apply O1; auto).
  assert (R : run f (n - j) s1 = Ok s1) by (destruct (n - j); cbn [run]; rewrite K1; auto). rewrite R. cbn [FbldModel.bind]. rewrite E1, Hp. auto.
Qed.
Lemma error_run : forall k, eval k [] d = Error -> exists f0, forall f n h' p, f0 <= f -> fbld_eval f n h (Some m) <> Ok (h', Some p).
Proof.
  intros k E. destruct start_top as [s0 [S0 T]]. pose proof (sim_all r re k _ _ _ _ _ T) as O. rewrite E in O. cbn [outcome c_dest] in O.
  destruct O as [j [s1 [f0 [O1 [W1 E1]]]]]. exists f0. intros f n h' p Lf. unfold fbld_eval. rewrite S0. cbn [FbldModel.bind].
  destruct (run f n s0) as [s|w] eqn:R; cbn [FbldModel.bind]; [|discriminate].
  apply (run_more f n (j + n)) in R; [|lia]. erewrite run_steps in R by (apply O1; auto).
  pose proof (run_ok r re f n s1 W1) as P. rewrite R in P. cbn [post] in P. destruct P as [_ [[_ ME] _]]. rewrite (ME E1).
  destruct (free f (hp s) (res s)); cbn [FbldModel.bind]; discriminate.
Qed.
Lemma assert_run : forall k, eval k [] d = Assert -> exists f0 n0, forall f n, f0 <= f -> n0 <= n -> fbld_eval f n h (Some m) = Stop AssertFail.
Proof.
  intros k E. destruct start_top as [s0 [S0 T]]. pose proof (sim_all r re k _ _ _ _ _ T) as O. rewrite E in O. cbn [outcome c_dest] in O.
  destruct O as [j [f0 O1]]. exists f0, j. intros f n Lf Ln. unfold fbld_eval. rewrite S0. cbn [FbldModel.bind].
  replace n with (j + (n - j)) by lia. erewrite run_stops by (apply O1; auto). auto.
Qed.
Lemma deep_run : forall k, eval k [] d = Deep -> exists f0, forall f, f0 <= f -> fbld_eval f k h (Some m) = Stop Timeout.
Proof.
  intros k E. destruct start_top as [s0 [S0 T]]. pose proof (sim_all r re k _ _ _ _ _ T) as O. rewrite E in O. cbn [outcome c_dest] in O.
  destruct O as [j [L [s1 [f0 [O1 N]]]]]. exists f0. intros f Lf. unfold fbld_eval. rewrite S0. cbn [FbldModel.bind].
  erewrite run_short; [reflexivity|apply O1; auto|auto|auto].
Qed.
End Eval.

(** ** Depth is only a bound *)
Lemma eval_list_deeper : forall (ev ev' : doc -> result doc) l, (forall d, ev d <> Deep -> ev' d = ev d) -> eval_list ev l <> Deep -> eval_list ev' l = eval_list ev l.
Proof.
  intros ev ev' l Q. induction l as [|x l IH]; intros N; auto. cbn [eval_list] in *. fold (eval_list ev l) in *. fold (eval_list ev' l) in *.
  destruct (eval_list ev l) as [vs| | |] eqn:E; cbn [FbldSpec.bind] in *; try (rewrite IH by discriminate; auto; fail); [|congruence].
  rewrite IH by discriminate. cbn [FbldSpec.bind]. rewrite Q; auto. intros D. rewrite D in N. apply N. auto.
Qed.
Lemma bind_deeper : forall {A B} (x x' : result A) (k k' : A -> result B), (x <> Deep -> x' = x) -> (forall a, k a <> Deep -> k' a = k a) -> FbldSpec.bind x k <> Deep -> FbldSpec.bind x' k' = FbldSpec.bind x k.
Proof. intros A B x x' k k' Q K N. destruct x as [a| | |]; cbn [FbldSpec.bind] in *; [|rewrite Q by discriminate; auto|rewrite Q by discriminate; auto|congruence]. rewrite Q by discriminate. cbn [FbldSpec.bind]. auto. Qed.
Theorem eval_deeper : forall k k' E d, k <= k' -> eval k E d <> Deep -> eval k' E d = eval k E d.
Proof.
  induction k as [|k IH]; intros k' E d L N; [cbn in N; congruence|]. destruct k' as [|k']; [lia|]. assert (Q : forall E d, eval k E d <> Deep -> eval k' E d = eval k E d) by (intros; apply IH; auto; lia). clear IH L.
  revert N. destruct d as [t|x ds|ds]; cbn [eval]; auto.
  - repeat first [ solve [intros; reflexivity] | apply Q | apply bind_deeper; [|intros ?] | apply eval_list_deeper | solve [intros; apply Q; auto]
      | match goal with |- context [match ?x with _ => _ end] => destruct x end | congruence ].
  - apply bind_deeper; [apply eval_list_deeper; apply Q|auto].
Qed.

(** ** C55 *)
Lemma run_less : forall f n m s w, run f n s = Stop w -> w <> Timeout -> run f (n + m) s = Stop w.
Proof.
  intros f. induction n as [|n IH]; intros m s w H N; cbn [run Nat.add] in *; destruct (stack s) eqn:E; try discriminate; [congruence|].
  destruct (step f s) as [s2|w2]; cbn [bind] in *; auto.
Qed.
Lemma eval_less : forall f n m h a w, fbld_eval f n h a = Stop w -> w <> Timeout -> fbld_eval f (n + m) h a = Stop w.
Proof.
  intros f n m h a w H N. unfold fbld_eval in *. destruct (start h a) as [s0|w0]; cbn [bind] in *; auto.
  destruct (run f n s0) as [s1|w1] eqn:R; cbn [bind] in *.
  - rewrite (run_more f n (n + m) _ _ ltac:(lia) R). exact H.
  - injection H as <-. rewrite (run_less _ _ m _ _ R N). auto.
Qed.
Lemma eval_more : forall f n m h a x, fbld_eval f n h a = Ok x -> fbld_eval f (n + m) h a = Ok x.
Proof.
  intros f n m h a w H. unfold fbld_eval in *. destruct (start h a) as [s0|w0]; cbn [bind] in *; auto.
  destruct (run f n s0) as [s1|w1] eqn:R; cbn [bind] in *; [|discriminate].
  rewrite (run_more f n (n + m) _ _ ltac:(lia) R). exact H.
Qed.

(** A document that means another one: FbldEval returns that one, and nothing else, and it does
    not crash on the way; the counts are exact with one more reference, the result. *)
Theorem eval_value : forall h m r re d k v, exact h r re -> holds h (Some m) d -> eval k [] d = Value v ->
  exists f0 n0 h' p,
    (forall f n, f0 <= f -> n0 <= n -> fbld_eval f n h (Some m) = Ok (h', Some p)) /\
    (forall f n, f0 <= f -> fbld_eval f n h (Some m) = Stop Timeout \/ fbld_eval f n h (Some m) = Ok (h', Some p)) /\
    holds h' (Some p) v /\ exact h' (plus (Some p) r) re.
Proof.
  intros h m r re d k v X H E. destruct (value_run h m r re d X H k v E) as [f0 [n0 [h' [p [R V]]]]]. exists f0, n0, h', p. split; auto. split; [|split; auto].
  - intros f n L. destruct (fbld_eval f n h (Some m)) as [x|w] eqn:Q.
    + right. apply eval_more with (m := n0) in Q. rewrite R in Q by lia. auto.
    + destruct (match w with Timeout => true | _ => false end) eqn:T; [destruct w; try discriminate; auto|].
      apply eval_less with (m := n0) in Q; [|intros ->; discriminate]. rewrite R in Q by lia. discriminate.
  - pose proof (eval_memory_safe f0 n0 h m r re X (holds_live _ _ _ H)) as P. rewrite R in P by lia. tauto.
Qed.

(** A document with an error: FbldEval never returns a document. *)
Theorem eval_error : forall h m r re d k, exact h r re -> holds h (Some m) d -> eval k [] d = Error ->
  exists f0, forall f n h' p, f0 <= f -> fbld_eval f n h (Some m) = Ok (h', p) -> p = None.
Proof.
  intros h m r re d k X H E. destruct (error_run h m r re d X H k E) as [f0 R]. exists f0. intros f n h' p L Q. destruct p as [p|]; auto. destruct (R f n h' p L Q).
Qed.
(** The string of a name, a list of parameters or a message that starts with two empty texts. *)
Theorem eval_assert : forall h m r re d k, exact h r re -> holds h (Some m) d -> eval k [] d = Assert ->
  exists f0 n0, forall f n, f0 <= f -> n0 <= n -> fbld_eval f n h (Some m) = Stop AssertFail.
Proof. intros h m r re d k X H E. exact (assert_run h m r re d X H k E). Qed.
(** A document whose evaluation does not end: FbldEval does not end. *)
Theorem eval_endless : forall h m r re d, exact h r re -> holds h (Some m) d -> (forall k, eval k [] d = Deep) ->
  forall n, exists f0, forall f, f0 <= f -> fbld_eval f n h (Some m) = Stop Timeout.
Proof. intros h m r re d X H E n. exact (deep_run h m r re d X H n (E n)). Qed.

(** And so a document that FbldEval returns is what the given one means. *)
Theorem eval_complete : forall h m r re d n f0 h' p, exact h r re -> holds h (Some m) d ->
  (forall f, f0 <= f -> fbld_eval f n h (Some m) = Ok (h', Some p)) -> exists k v, eval k [] d = Value v /\ holds h' (Some p) v.
Proof.
  intros h m r re d n f0 h' p X H Q. destruct (eval n [] d) as [v| | |] eqn:E.
  - exists n, v. split; auto. destruct (value_run h m r re d X H n v E) as [f1 [n1 [h1 [p1 [R V]]]]].
    specialize (R (f0 + f1) (n + n1) ltac:(lia) ltac:(lia)). rewrite (eval_more _ n n1 _ _ _ (Q (f0 + f1) ltac:(lia))) in R. injection R as <- <-. auto.
  - destruct (error_run h m r re d X H n E) as [f1 R]. destruct (R (f0 + f1) n h' p ltac:(lia) (Q (f0 + f1) ltac:(lia))).
  - destruct (assert_run h m r re d X H n E) as [f1 [n1 R]]. specialize (R (f0 + f1) (n + n1) ltac:(lia) ltac:(lia)). rewrite (eval_more _ n n1 _ _ _ (Q (f0 + f1) ltac:(lia))) in R. discriminate.
  - destruct (deep_run h m r re d X H n E) as [f1 R]. specialize (R (f0 + f1) ltac:(lia)). rewrite (Q (f0 + f1) ltac:(lia)) in R. discriminate.
Qed.

(** From a document in memory as the parser makes it, to its result and back. *)
Theorem eval_document : forall d k v, eval k [] d = Value v -> let (h, a) := alloc no_memory d in
  exists f0 n0 h' p, (forall f n, f0 <= f -> n0 <= n -> fbld_eval f n h (Some a) = Ok (h', Some p)) /\ holds h' (Some p) v /\ holds h' (Some a) d.
Proof.
  intros d k v E. pose proof (alloc_ok d no_memory none none no_memory_ok) as P. pose proof (eval_document_safe) as S0. destruct (alloc no_memory d) as [h a] eqn:A. destruct P as [I [_ H]].
  assert (X : exact h (plus (Some a) none) none) by (apply exact_inv; eapply inv_ext; [exact I| |]; auto; intros; symmetry; apply plus_add).
  destruct (eval_value h a _ _ d k v X H E) as [f0 [n0 [h' [p [R [_ [V _]]]]]]]. exists f0, n0, h', p. split; auto. split; auto.
  specialize (S0 f0 n0 d). rewrite A in S0. rewrite R in S0 by lia. tauto.
Qed.

(** ** The language *)

(** A document without commands means itself, and an unknown command is left as it is. *)
Fixpoint no_commands (d : doc) : bool := match d with Plain _ => true | Command _ _ => false | Sequence ds => forallb no_commands ds end.
Theorem plain_document : forall d E, no_commands d = true -> exists k, forall k', k <= k' -> eval k' E d = Value d.
Proof.
  intros d E.
  induction d as [t|x ds IH|ds IH] using doc_ind2; intros N; cbn in N; [|discriminate|].
  - exists 1. intros [|k'] L; [lia|]. reflexivity.
  - assert (Q : exists k, forall k', k <= k' -> eval_list (eval k' E) ds = Value ds).
    { clear - IH N. induction IH as [|x ds Hx H IH]; [exists 0; auto|]. cbn in N. apply andb_prop in N. destruct N as [N1 N2].
      destruct (Hx N1) as [k1 Q1]. destruct (IH N2) as [k2 Q2]. exists (k1 + k2). intros k' L. cbn [eval_list]. fold (eval_list (eval k' E) ds). rewrite Q2 by lia. cbn [FbldSpec.bind]. rewrite Q1 by lia. reflexivity. }
    destruct Q as [k Q]. exists (S k). intros [|k'] L; [lia|]. cbn [eval]. rewrite Q by lia. reflexivity.
Qed.
(** Names are equal when all their characters are. *)
Theorem text_eqb_iff : forall a b, text_eqb a b = true <-> a = b.
Proof. intros a b. unfold text_eqb. destruct (list_eq_dec Z.eq_dec a b); split; intros; auto; congruence. Qed.
Definition builtin_names : list text := map txt ["error"; "define"; "let"; "head"; "tail"; "ifeq"; "ifneq"; "plain"; "eval"]%string.
Theorem unknown_command : forall k E x ds, lookup E x = None -> ~ In x builtin_names -> eval (S k) E (Command x ds) = Value (Command x ds).
Proof. intros k E x ds L B0. cbn [eval]. rewrite L.
  assert (B : forall b, In b builtin_names -> text_eqb x b = false).
  { intros b I. destruct (text_eqb x b) eqn:Q; auto. apply text_eqb_iff in Q. subst b. tauto. } rewrite !B by (cbn; tauto). reflexivity. Qed.

(** Definitions have static scope: a call of the innermost definition of [x] evaluates its body
    where it was defined, with the values of the arguments, each evaluated at the call. *)
Theorem call_static : forall k E1 x params body E2 args vs v, (forall d, In d E1 -> name_of d <> x) ->
  List.length args = List.length params -> Forall2 (fun a w => eval k (E1 ++ Fun x params body :: E2) a = Value w) args vs ->
  eval k (bind_args params vs (Fun x params body :: E2)) body = Value v -> eval (S k) (E1 ++ Fun x params body :: E2) (Command x args) = Value v.
Proof.
  intros k E1 x params body E2 args vs v N0 L F EB. cbn [eval].
  assert (T : text_eqb x x = true) by (apply text_eqb_iff; auto).
  assert (N : forall d, In d E1 -> text_eqb x (name_of d) = false).
  { intros d I. destruct (text_eqb x (name_of d)) eqn:B; auto. apply text_eqb_iff in B. destruct (N0 d I). auto. }
  assert (LK : lookup (E1 ++ Fun x params body :: E2) x = Some (Fun x params body, Fun x params body :: E2)).
  { clear - N T. induction E1 as [|d E1 IH]; cbn [app lookup name_of]; [rewrite T; auto|]. rewrite N by (left; auto). apply IH. intros d' I. apply N. right. auto. }
  rewrite LK, L, Nat.eqb_refl. assert (EL : eval_list (eval k (E1 ++ Fun x params body :: E2)) args = Value vs).
  { clear - F. induction F as [|a w args vs H F IH]; auto. cbn [eval_list]. fold (eval_list (eval k (E1 ++ Fun x params body :: E2)) args). rewrite IH. cbn [FbldSpec.bind]. rewrite H. reflexivity. }
  rewrite EL. cbn [FbldSpec.bind]. exact EB.
Qed.

(** The parameters of a definition: the words of a text, that is, its longest runs of characters
    that are not white space. *)
Inductive words : text -> list text -> Prop :=
| words_nil : words [] []
| words_space c t ws : In c [32; 9; 10; 11; 12; 13]%Z -> words t ws -> words (c :: t) ws
| words_word w t ws : w <> [] -> (forall c, In c w -> ~ In c [32; 9; 10; 11; 12; 13]%Z) ->
    (t = [] \/ exists c t', t = c :: t' /\ In c [32; 9; 10; 11; 12; 13]%Z) -> words t ws -> words (w ++ t) (w :: ws).
Lemma is_space_in : forall c, is_space c = true <-> In c [32; 9; 10; 11; 12; 13]%Z.
Proof. intros c. unfold is_space. cbn [In]. rewrite orb_true_iff, andb_true_iff, Z.eqb_eq, !Z.leb_le. lia. Qed.
Theorem params_words : forall t ws, words t ws <-> ws = split_args t [].
Proof.
  assert (RUN : forall w t acc, (forall c, In c w -> is_space c = false) -> split_args (w ++ t) acc = split_args t (acc ++ w)).
  { induction w as [|c w IH]; intros t acc N; cbn [app split_args]; [rewrite app_nil_r; auto|]. rewrite (N c) by (left; auto). rewrite IH by (intros; apply N; right; auto). rewrite <- app_assoc. auto. }
  assert (NS : forall c, ~ In c [32; 9; 10; 11; 12; 13]%Z -> is_space c = false).
  { intros c N. destruct (is_space c) eqn:Ec; auto. apply is_space_in in Ec. tauto. }
  intros t ws. split.
  - intros W. induction W as [|c t ws S W IH|w t ws N F D W IH].
    + reflexivity.
    + apply is_space_in in S. cbn [split_args]. rewrite S. auto.
    + rewrite RUN by (intros c I; apply NS; auto). cbn [app]. destruct D as [->|[c [t' [-> S]]]].
      * cbn in IH. subst ws. cbn [split_args]. destruct w; [destruct N; reflexivity|reflexivity].
      * apply is_space_in in S. cbn [split_args] in *. rewrite S in *. subst ws. destruct w; [destruct N; reflexivity|reflexivity].
  - intros ->.
    assert (Q : forall t, words t (split_args t []) /\ (forall acc, acc <> [] -> (forall c, In c acc -> ~ In c [32; 9; 10; 11; 12; 13]%Z) -> words (acc ++ t) (split_args t acc))).
    { clear t. induction t as [|c t [IH1 IH2]].
      - split; [constructor|]. intros acc N F. cbn [split_args]. destruct acc; [congruence|]. apply words_word; auto; first [discriminate|constructor].
      - cbn [split_args]. destruct (is_space c) eqn:Ec.
        + pose proof Ec as S. apply is_space_in in S. split; [constructor; auto|]. intros acc N F. destruct acc as [|a acc]; [congruence|]. apply words_word; auto; [right; eauto|]. apply words_space; auto.
        + assert (S : ~ In c [32; 9; 10; 11; 12; 13]%Z) by (intros J; apply is_space_in in J; congruence). split.
          * apply (IH2 [c]); [discriminate|]. intros c' [<-|[]]. auto.
          * intros acc N F. replace (acc ++ c :: t) with ((acc ++ [c]) ++ t) by (rewrite <- app_assoc; reflexivity). apply IH2; [destruct acc; discriminate|]. intros c' J. apply in_app_or in J. destruct J as [J|[<-|[]]]; auto. }
    apply Q.
Qed.
Example ex_words : words (txt " a  bc") [txt "a"; txt "bc"].
Proof. apply params_words. reflexivity. Qed.

(** ** Examples *)
Definition P s := Plain (txt s).
Definition C s l := Command (txt s) l.
Local Open Scope string_scope.
(** \@define[foo][x y][\@x[]-\@y[]][\@foo[a][\@tail[qzz]]] *)
Definition ex_define : doc := C "define" [P "foo"; P "x y "; Sequence [C "x" []; P "-"; C "y" []]; C "foo" [P "a"; C "tail" [Sequence [P ""; P "q"; P "zz"]]]].
Example ex_define_means : eval 20 [] ex_define = Value (Sequence [P "a"; P "-"; Sequence [P ""; P "zz"]]).
Proof. vm_compute. reflexivity. Qed.
(** Static scope: the second \@x is not the one of the definition. *)
Definition ex_scope : doc := C "let" [P "x"; P "1"; C "define" [P "g"; P ""; C "x" []; C "let" [P "x"; P "2"; Sequence [C "g" []; C "x" []]]]].
Example ex_scope_means : eval 20 [] ex_scope = Value (Sequence [P "1"; P "2"]).
Proof. vm_compute. reflexivity. Qed.
(** A command is data until it is evaluated. *)
Definition ex_eval : doc := C "let" [P "x"; C "foo" [P "1"]; C "define" [P "foo"; P "z"; Sequence [P "<"; C "z" []; P ">"]; Sequence [C "eval" [C "x" []]; C "x" []]]].
Example ex_eval_means : eval 20 [] ex_eval = Value (Sequence [Sequence [P "<"; P "1"; P ">"]; C "foo" [P "1"]]).
Proof. vm_compute. reflexivity. Qed.
Definition ex_ifneq : doc := C "ifneq" [P "ab"; Sequence [P "a"; P "b"]; P "ne"; P "eq"].
Example ex_ifneq_means : eval 20 [] ex_ifneq = Value (P "eq").
Proof. vm_compute. reflexivity. Qed.
Definition ex_plain : doc := C "plain" [P "f"; Sequence [P "a"; C "keep" [P "b"]]].
Example ex_plain_means : eval 20 [] ex_plain = Value (Sequence [C "f" [P "a"]; C "keep" [P "b"]]).
Proof. vm_compute. reflexivity. Qed.
Definition ex_error : doc := Sequence [C "error" [P "x"]; P "b"].
Example ex_error_means : eval 20 [] ex_error = Error.
Proof. vm_compute. reflexivity. Qed.
(** \@define[f][][\@f[]][\@f[]] *)
Definition ex_endless : doc := C "define" [P "f"; P ""; C "f" []; C "f" []].
Example ex_endless_means : forall k, eval k [] ex_endless = Deep.
Proof.
  assert (Q : forall k, eval k [Fun (txt "f") [] (C "f" [])] (C "f" []) = Deep).
  { induction k as [|k IH]; [reflexivity|]. cbn [eval C]. change (lookup _ _) with (Some (Fun (txt "f") [] (C "f" []), [Fun (txt "f") [] (C "f" [])])). cbn [List.length Nat.eqb eval_list FbldSpec.bind bind_args]. exact IH. }
  intros [|[|k]]; [reflexivity|reflexivity|]. specialize (Q (S k)). unfold ex_endless, C, P in *. exact Q.
Qed.

(** The C54 failures: \@tail[\@error[x]] reads a NULL pointer; a name of two empty texts fails an
    assertion. *)
Definition in_memory (d : doc) : heap * nat := alloc no_memory d.
Definition run_document (f n : nat) (d : doc) := let (h, a) := in_memory d in fbld_eval f n h (Some a).
Example ex_null : run_document 50 50 (C "tail" [C "error" [P "x"]]) = Stop NullDeref.
Proof. vm_compute. reflexivity. Qed.
Example ex_assert : run_document 50 50 (C "let" [Sequence [P ""; P ""; P "x"]; P "1"; P "2"]) = Stop AssertFail /\ eval 20 [] (C "let" [Sequence [P ""; P ""; P "x"]; P "1"; P "2"]) = Assert.
Proof. split; vm_compute; reflexivity. Qed.
(** Runs of the model on the others. *)
Fixpoint read (f : nat) (h : heap) (p : option nat) : option doc :=
  match f, p with
  | S f', Some a =>
    match mh h a with
    | Some n =>
      let kids := flat_map (fun k => match read f' h k with Some d => [d] | None => [] end) (n_kids n) in
      match n_tag n with TPlain => Some (Plain (n_text n)) | TCommand => Some (Command (n_text n) kids) | TSequence => Some (Sequence kids) end
    | None => None
    end
  | _, _ => None
  end.
Definition result_of (d : doc) : option (option doc) :=
  match run_document 100 100 d with Ok (h, p) => Some (read 20 h p) | Stop _ => None end.
Example ex_runs : map result_of [ex_define; ex_scope; ex_eval; ex_ifneq; ex_plain; ex_error; ex_endless] =
  [Some (Some (Sequence [P "a"; P "-"; Sequence [P ""; P "zz"]])); Some (Some (Sequence [P "1"; P "2"]));
   Some (Some (Sequence [Sequence [P "<"; P "1"; P ">"]; C "foo" [P "1"]])); Some (Some (P "eq")); Some (Some (Sequence [C "f" [P "a"]; C "keep" [P "b"]])); Some None; None].
Proof. vm_compute. reflexivity. Qed.
(** After a run the given document and the result are all that is live (one of them shares a part),
    and freeing both frees everything. *)
Definition live_marks (h : heap) : list nat := filter (fun a => match mh h a with Some _ => true | None => false end) (seq 0 (nm h)).
Definition after_run (d : doc) : option (nat * list nat * list nat) :=
  match run_document 100 100 d with
  | Ok (h, Some q) =>
    match free 20 h (Some (snd (in_memory d))) with
    | Ok h1 => match free 20 h1 (Some q) with Ok h2 => Some (match mh h q with Some n => n_rc n | None => 0 end, live_marks h, live_marks h2) | Stop _ => None end
    | Stop _ => None
    end
  | _ => None
  end.
Example ex_counts : map after_run [ex_ifneq; ex_define] = [Some (2, [0; 1; 2; 3; 4; 5; 6], []); Some (1, [0; 1; 2; 3; 4; 5; 6; 7; 8; 9; 10; 11; 12; 13; 15; 16; 17], [])].
Proof. vm_compute. reflexivity. Qed.
(** A heap that meets the hypotheses of C53: the caller has one reference to a text and two to a
    sequence that refers to it twice. *)
Definition ex_heap : heap := mk_heap (fun a => match a with 0 => Some (mk_node TPlain (txt "a") [] 3) | 1 => Some (mk_node TSequence [] [Some 0; Some 0] 2) | _ => None end) 2 (fun _ => None) 0.
Example ex_heap_exact : exact ex_heap (plus (Some 0) (plus (Some 1) (plus (Some 1) none))) none /\ holds ex_heap (Some 1) (Sequence [P "a"; P "a"]).
Proof.
  split.
  - constructor; cbn; intros; try discriminate; auto.
    + destruct a as [|[|a]]; auto; lia.
    + destruct a as [|[|a]]; inversion H; subst; cbn; lia.
    + destruct a as [|[|a]]; try discriminate. unfold uses. cbn. auto.
  - eapply holds_sequence; [reflexivity|]. repeat constructor; eapply holds_plain; reflexivity.
Qed.

Print Assumptions eval_value.
Print Assumptions eval_error.
Print Assumptions eval_assert.
Print Assumptions eval_endless.
Print Assumptions eval_complete.
Print Assumptions eval_document.
Print Assumptions plain_document.
Print Assumptions unknown_command.
Print Assumptions call_static.
Print Assumptions params_words.
