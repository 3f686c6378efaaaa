(** * The lexer of fbld/parse.c reads one stream of characters. *)
From Coq Require Import ZArith String Ascii List Arith Lia Bool.
From Verif Require Import FbldModel FbldSpec FbldParse.
Import ListNotations.
Local Open Scope list_scope.
Notation length := List.length.
Notation bind := FbldModel.bind.

(** ** A lexer of one text *)
Record alex := mk_a { a_col : nat; a_ind : nat; a_rest : text }.
(** The next character from the indentation [k] columns away, after how many spaces. *)
Fixpoint look (k : nat) (t : text) : Z * nat :=
  match t with
  | [] => (END, 0)
  | c :: r =>
    match k with
    | O => (c, 0)
    | S k' => if (c =? SP)%Z then let (d, n) := look k' r in (d, S n) else if (c =? NL)%Z then (NL, 0) else (END, 0)
    end
  end.
Definition peek (a : alex) : Z * nat := look (a_ind a + 1 - a_col a) (a_rest a).
Fixpoint prefix (s t : text) : bool :=
  match s, t with
  | [], _ => true
  | x :: s', y :: t' => (x =? y)%Z && prefix s' t'
  | _ :: _, [] => false
  end.
Definition a_isb (a : alex) (s : text) : bool :=
  match s with
  | [] => true
  | x :: r => let (c, n) := peek a in negb (c =? END)%Z && (x =? c)%Z && prefix r (skipn (S n) (a_rest a))
  end.
Definition a_next (a : alex) : alex := let (c, n) := peek a in mk_a (columns (a_col a) (firstn (S n) (a_rest a))) (a_ind a) (skipn (S n) (a_rest a)).
Definition a_advance (a : alex) : out alex := if (fst (peek a) =? END)%Z then Stop AssertFail else Ok (a_next a).
Definition a_set (a : alex) (n : nat) : alex := mk_a (a_col a) n (a_rest a).
Definition a_ops : ops alex := mk_ops (fun a s => Ok (a_isb a s, a)) (fun a => Ok (fst (peek a), a)) a_advance a_col a_ind a_set.

(** ** The lexer does the same *)
Definition ends (t : text) : Prop := t = [] \/ exists u, t = u ++ [NL].
Record rel (l : lex) (a : alex) : Prop := {
  r_ind : indent l = a_ind a;
  r_rest : a_rest a = next l ++ fin l ++ concat (files l);
  r_col : column l = a_col a;
  r_files : Forall ends (files l);
  r_cur : ends (next l ++ fin l);
  r_new : next l ++ fin l = [] -> column l = 1;
  r_noend : ~ In END (a_rest a) }.
Definition token (s : text) : bool := match s with [] => false | _ => forallb (fun c => negb (c =? NL)%Z && negb (c =? END)%Z) (removelast s) end.

Lemma ends_app : forall a b, ends (a ++ b) -> b <> [] -> ends b.
Proof. intros a b [H|[u H]] N; [apply app_eq_nil in H; tauto|]. right. destruct (exists_last N) as [v [x ->]]. rewrite app_assoc in H. apply app_inj_tail in H. destruct H as [_ ->]. eauto. Qed.
Lemma open_rel : forall fs l a, rel l a -> files l = fs -> next l = [] -> fin l = [] ->
  exists c l1, open_next fs l = (c, l1) /\ (c = END /\ a_rest a = [] /\ rel l1 a /\ next l1 = [] \/
    c <> END /\ rel (mk_lex (files l1) (fin l1) (column l1) (indent l1) [c]) a /\ next l1 = []).
Proof.
  induction fs as [|[|c t] fs IH]; intros l a R F N E; cbn [open_next].
  - exists END. eexists. split; [reflexivity|]. left. destruct R. rewrite N, E, F in *. cbn in *. repeat split; auto; cbn; rewrite ?N, ?E; auto.
  - apply IH; auto. destruct R. rewrite N, E, F in *. cbn in *. inversion r_files0; subst. constructor; cbn; rewrite ?N; auto. rewrite <- r_new0; auto.
  - exists c. eexists. split; [reflexivity|]. right. destruct R. rewrite N, E, F in *. cbn in *. inversion r_files0 as [|? ? En Fs]; subst. split; [|split; auto].
    + intros ->. apply r_noend0. rewrite r_rest0. left. auto.
    + constructor; cbn; auto. rewrite <- r_new0; auto.
Qed.
Lemma get_rel : forall l a i, rel l a -> length (next l) = i -> (i = 0 \/ nth (pred i) (next l) END <> NL) ->
  exists c l1, get_c l = (c, l1) /\ (c = END /\ skipn i (a_rest a) = [] /\ rel l1 a /\ next l1 = next l \/
    c <> END /\ rel (mk_lex (files l1) (fin l1) (column l1) (indent l1) (next l1 ++ [c])) a /\ next l1 = next l).
Proof.
  intros l a i R L P. unfold get_c. destruct (fin l) as [|c t] eqn:E.
  - destruct (next l) as [|x n] eqn:N.
    + destruct (open_rel (files l) l a R eq_refl N E) as [c [l1 [Ho H]]]. exists c, l1. split; auto. cbn in L. subst i. destruct H as [[-> [H1 [H2 H3]]]|[H1 [H2 H3]]]; [left|right]; rewrite H3; auto.
    + exists END, l. split; auto. destruct P as [->|P]; [discriminate|]. destruct (r_cur _ _ R) as [H|[u H]]; rewrite N, E, app_nil_r in H; [discriminate|].
      exfalso. apply P. subst i. rewrite H. rewrite app_length, Nat.add_comm. cbn. rewrite app_nth2, Nat.sub_diag by lia. reflexivity.
  - exists c. eexists. split; [reflexivity|]. right. destruct R. rewrite E in *. cbn [next files fin column indent] in *. split; [|split; auto].
    + intros ->. apply r_noend0. rewrite r_rest0. apply in_or_app. right. left. auto.
    + assert (Q : forall x, (next l ++ [c]) ++ x = next l ++ c :: x) by (intros; rewrite <- app_assoc; auto).
      constructor; cbn [next files fin column indent]; auto; rewrite ?Q; auto.
Qed.

Lemma rest_nth : forall l a i, rel l a -> i < length (next l) -> skipn i (a_rest a) = nth i (next l) END :: skipn (S i) (a_rest a).
Proof.
  intros l a i R L. rewrite (r_rest _ _ R). generalize (fin l ++ concat (files l)) as t. revert i L. generalize (next l) as n. clear.
  induction n as [|x n IH]; intros i L t; cbn in L; [lia|]. destruct i as [|i]; cbn; auto. apply IH. lia.
Qed.
Lemma firstn_next : forall l a i, rel l a -> i <= length (next l) -> firstn i (a_rest a) = firstn i (next l).
Proof. intros l a i R L. rewrite (r_rest _ _ R), firstn_app. replace (i - length (next l)) with 0 by lia. cbn. apply app_nil_r. Qed.

Lemma fetch_rel : forall k l a i, rel l a -> i <= length (next l) -> (i = 0 \/ nth (pred i) (next l) END <> NL) ->
  exists c j l1, fetch k l i = (c, j, l1) /\ rel l1 a /\ (exists n, look k (skipn i (a_rest a)) = (c, n) /\ j = i + n) /\ (c <> END -> j < length (next l1)).
Proof.
  induction k as [|k IH]; intros l a i R L P; cbn [fetch].
  - destruct (Nat.eqb_spec (length (next l)) i) as [E|E].
    + destruct (get_rel l a i R E P) as [c [l1 [-> [[-> [H1 [H2 H3]]]|[H1 [H2 H3]]]]]].
      * exists END, i, l1. split; [reflexivity|]. split; auto. rewrite H1. split; [exists 0; auto|congruence].
      * apply Z.eqb_neq in H1. rewrite H1. set (l2 := mk_lex _ _ _ _ _) in *. assert (N2 : next l2 = next l ++ [c]) by (cbn; congruence).
        exists (nth i (next l2) END), i, l2. split; [reflexivity|]. split; auto. assert (L2 : i < length (next l2)) by (rewrite N2, app_length; cbn; lia).
        rewrite (rest_nth l2 a i H2 L2). split; [exists 0; cbn; auto|auto].
    + exists (nth i (next l) END), i, l. split; [reflexivity|]. split; auto. rewrite (rest_nth l a i R) by lia. split; [exists 0; cbn; auto|intros; lia].
  - assert (Q : forall l2, rel l2 a -> i < length (next l2) -> exists c j l1,
        (let c := nth i (next l2) END in if (c =? SP)%Z then fetch k l2 (S i) else if (c =? NL)%Z then (NL, i, l2) else (END, i, l2)) = (c, j, l1) /\
        rel l1 a /\ (exists n, look (S k) (skipn i (a_rest a)) = (c, n) /\ j = i + n) /\ (c <> END -> j < length (next l1))).
    { intros l2 R2 L2. rewrite (rest_nth l2 a i R2 L2). cbn [look]. cbv zeta. destruct (Z.eqb_spec (nth i (next l2) END) SP) as [E|E].
      - destruct (IH l2 a (S i) R2 L2) as [c [j [l1 [F [R1 [[n [LK ->]] B]]]]]]; [right; cbn [pred]; rewrite E; discriminate|].
        exists c, (S i + n), l1. split; auto. split; auto. rewrite LK. split; [exists (S n); split; [auto|lia]|auto].
      - destruct (nth i (next l2) END =? NL)%Z; [exists NL, i, l2|exists END, i, l2]; (split; [reflexivity|]); (split; [auto|]); (split; [exists 0; split; [reflexivity|lia]|auto]). }
    destruct (Nat.eqb_spec (length (next l)) i) as [E|E].
    + destruct (get_rel l a i R E P) as [c [l1 [-> [[-> [H1 [H2 H3]]]|[H1 [H2 H3]]]]]].
      * exists END, i, l1. split; [reflexivity|]. split; auto. rewrite H1. split; [exists 0; auto|congruence].
      * apply Z.eqb_neq in H1. rewrite H1. apply Q; auto. cbn. rewrite H3, app_length. cbn. lia.
    + apply Q; auto. lia.
Qed.

Lemma columns_spaces : forall k t c n col, look k t = (c, n) -> c <> END -> c <> NL -> col + k <= columns col (firstn n t).
Proof.
  induction k as [|k IH]; intros t c n col H E N; destruct t as [|x t]; cbn [look] in H; try congruence.
  - injection H as <- <-. cbn. lia.
  - destruct (Z.eqb_spec x SP) as [->|_]; [|destruct (x =? NL)%Z; congruence]. destruct (look k t) as [d m] eqn:LK. injection H as <- <-. cbn [firstn columns fold_left].
    change (SP =? NL)%Z with false. cbn [fold_left]. specialize (IH t d m (S col) LK E N). unfold columns in IH. lia.
Qed.
Lemma look_nth : forall k t c n, look k t = (c, n) -> c <> END -> exists r, skipn n t = c :: r.
Proof.
  induction k as [|k IH]; intros [|x t] c n H E; cbn [look] in H; try congruence.
  - injection H as <- <-. eexists; reflexivity.
  - destruct (Z.eqb_spec x SP) as [->|_].
    + destruct (look k t) as [d m] eqn:LK. injection H as <- <-. destruct (IH _ _ _ LK E) as [r Hr]. exists r. exact Hr.
    + destruct (Z.eqb_spec x NL) as [->|_]; [injection H as <- <-; eexists; reflexivity|congruence].
Qed.
Lemma skipn_cons : forall {A} n (t : list A) c r, skipn n t = c :: r -> skipn (S n) t = r /\ firstn (S n) t = firstn n t ++ [c].
Proof. intros A. induction n as [|n IH]; intros [|x t] c r H; cbn [skipn] in *; try discriminate; [injection H as -> ->; auto|]. destruct (IH _ _ _ H) as [E1 E2]. split; auto. cbn [firstn app]. f_equal. exact E2. Qed.
Lemma columns_app : forall u v c, columns c (u ++ v) = columns (columns c u) v.
Proof. intros. apply fold_left_app. Qed.

Lemma is_from_rel : forall s l a i, rel l a -> i <= length (next l) -> (s = [] \/ token s = true /\ nth (pred i) (next l) END <> NL /\ a_ind a + 1 <= columns (a_col a) (firstn i (a_rest a))) -> i > 0 ->
  exists l1, is_from l s i = Ok (prefix s (skipn i (a_rest a)), l1) /\ rel l1 a.
Proof.
  induction s as [|x s IH]; intros l a i R L P Pi; cbn [is_from]; [exists l; auto|].
  destruct P as [P|[T [N C]]]; [discriminate|]. unfold next_fetched. destruct (Nat.leb_spec i (length (next l))); [|lia].
  destruct (fetch_rel (indent l + 1 - columns (column l) (firstn i (next l))) l a i R L (or_intror N)) as [c [j [l1 [F [R1 [[n [LK ->]] B]]]]]].
  rewrite F. cbn [bind]. rewrite (r_ind _ _ R), (r_col _ _ R), <- (firstn_next l a i R L) in LK. replace (a_ind a + 1 - columns (a_col a) (firstn i (a_rest a))) with 0 in LK by lia.
  destruct (skipn i (a_rest a)) as [|y t] eqn:SK; cbn [look] in LK; injection LK as <- <-.
  - change (END =? END)%Z with true. cbv iota. exists l1. split; auto.
  - assert (Ny : (y =? END)%Z = false). { apply Z.eqb_neq. intros ->. apply (r_noend _ _ R). rewrite <- (firstn_skipn i (a_rest a)), SK. apply in_or_app. right. left. auto. }
    rewrite Ny. cbn [prefix]. destruct (Z.eqb_spec x y) as [->|NE]; cbn [andb]; [|exists l1; auto]. rewrite Nat.add_0_r. destruct (skipn_cons _ _ _ _ SK) as [S1 S2].
    apply Z.eqb_neq in Ny. assert (B' : i + 0 < length (next l1)) by auto. rewrite Nat.add_0_r in B'.
    destruct s as [|x2 s]; [exists l1; cbn; auto|]. rewrite <- S1. apply IH; auto; try lia. right.
    assert (Yn : y <> NL). { cbn in T. apply andb_prop in T. destruct T as [T _]. apply andb_prop in T. destruct T as [T _]. intros ->. discriminate. }
    split; [|split].
    + cbn in T. apply andb_prop in T. destruct T as [_ T]. exact T.
    + cbn [pred]. pose proof (rest_nth l1 a i R1 B') as Q. rewrite SK in Q. injection Q as <- _. auto.
    + rewrite S2, columns_app. cbn. apply Z.eqb_neq in Yn. rewrite Yn. lia.
Qed.

Lemma is_rel : forall l a s, rel l a -> token s = true -> exists l1, is l s = Ok (a_isb a s, l1) /\ rel l1 a.
Proof.
  intros l a [|x s] R T; [discriminate|]. unfold is. cbn [is_from]. unfold next_fetched. cbn [Nat.leb]. change (columns (column l) (firstn 0 (next l))) with (column l).
  destruct (fetch_rel (indent l + 1 - column l) l a 0 R (Nat.le_0_l _) (or_introl eq_refl)) as [c [j [l1 [F [R1 [[n [LK ->]] B]]]]]].
  rewrite F. cbn [bind]. cbn [a_isb]. unfold peek. rewrite (r_ind _ _ R), (r_col _ _ R) in LK. cbn [skipn] in LK. rewrite LK. cbn [Nat.add] in *.
  destruct (Z.eqb_spec c END) as [E|E]; cbn [negb andb]; [exists l1; auto|]. destruct (Z.eqb_spec x c) as [->|NE]; cbn [andb]; [|exists l1; auto].
  specialize (B E). destruct (look_nth _ _ _ _ LK E) as [r SK]. destruct (skipn_cons _ _ _ _ SK) as [S1 S2]. rewrite S1.
  destruct s as [|x2 s]; [exists l1; cbn; auto|]. rewrite <- S1. apply is_from_rel; auto; try lia. right.
  assert (Yn : c <> NL). { cbn in T. apply andb_prop in T. destruct T as [T _]. apply andb_prop in T. destruct T as [T _]. intros ->. discriminate. }
  split; [|split].
  + cbn in T. apply andb_prop in T. destruct T as [_ T]. exact T.
  + cbn [pred]. pose proof (rest_nth l1 a n R1 B) as Q. rewrite SK in Q. injection Q as <- _. auto.
  + rewrite S2, columns_app. cbn. pose proof (columns_spaces _ _ _ _ (a_col a) LK E Yn). apply Z.eqb_neq in Yn. rewrite Yn. lia.
Qed.
Lemma char_rel : forall l a, rel l a -> exists l1, char_of l = Ok (fst (peek a), l1) /\ rel l1 a.
Proof.
  intros l a R. unfold char_of, next_fetched. cbn [Nat.leb]. change (columns (column l) (firstn 0 (next l))) with (column l).
  destruct (fetch_rel (indent l + 1 - column l) l a 0 R (Nat.le_0_l _) (or_introl eq_refl)) as [c [j [l1 [F [R1 [[n [LK ->]] B]]]]]].
  rewrite F. cbn [bind]. exists l1. split; auto. unfold peek. rewrite (r_ind _ _ R), (r_col _ _ R) in LK. cbn [skipn] in LK. rewrite LK. auto.
Qed.
Lemma advance_rel : forall l a, rel l a -> match a_advance a with Ok a1 => exists l1, advance l = Ok l1 /\ rel l1 a1 | Stop w => advance l = Stop w end.
Proof.
  intros l a R. unfold advance, a_advance, a_next, next_fetched. cbn [Nat.leb]. change (columns (column l) (firstn 0 (next l))) with (column l).
  destruct (fetch_rel (indent l + 1 - column l) l a 0 R (Nat.le_0_l _) (or_introl eq_refl)) as [c [j [l1 [F [R1 [[n [LK ->]] B]]]]]].
  rewrite F. cbn [bind]. unfold peek. rewrite (r_ind _ _ R), (r_col _ _ R) in LK. cbn [skipn] in LK. rewrite LK. cbn [fst Nat.add] in *.
  destruct (Z.eqb_spec c END) as [E|E]; auto. specialize (B E). eexists. split; [reflexivity|]. destruct R1.
  assert (SK : skipn (S n) (a_rest a) = skipn (S n) (next l1) ++ fin l1 ++ concat (files l1)) by (rewrite r_rest0, skipn_app; replace (S n - length (next l1)) with 0 by lia; auto).
  assert (FI : firstn (S n) (a_rest a) = firstn (S n) (next l1)) by (rewrite r_rest0, firstn_app; replace (S n - length (next l1)) with 0 by lia; cbn; apply app_nil_r).
  assert (CU : skipn (S n) (next l1) ++ fin l1 = skipn (S n) (next l1 ++ fin l1)) by (rewrite skipn_app; replace (S n - length (next l1)) with 0 by lia; auto).
  constructor; cbn [indent a_ind next fin files column a_rest a_col]; auto.
  - rewrite FI, r_col0. auto.
  - rewrite CU. destruct (skipn (S n) (next l1 ++ fin l1)) eqn:Q; [left; auto|]. rewrite <- Q. apply ends_app with (a := firstn (S n) (next l1 ++ fin l1)); [rewrite firstn_skipn; auto|rewrite Q; discriminate].
  - rewrite CU. intros Q. destruct r_cur0 as [Z0|[u Z0]]; [apply app_eq_nil in Z0; destruct Z0 as [Z0 _]; rewrite Z0 in B; cbn in B; lia|].
    assert (FU : firstn (S n) (next l1 ++ fin l1) = next l1 ++ fin l1) by (rewrite <- (firstn_skipn (S n) (next l1 ++ fin l1)) at 2; rewrite Q, app_nil_r; auto).
    assert (FN : firstn (S n) (next l1) = next l1 ++ fin l1). { rewrite <- FU, firstn_app. replace (S n - length (next l1)) with 0 by lia. cbn. rewrite app_nil_r. auto. }
    rewrite FN, Z0, columns_app. reflexivity.
  - intros I. apply r_noend0. rewrite <- (firstn_skipn (S n) (a_rest a)). apply in_or_app. right. exact I.
Qed.
Lemma set_rel : forall l a n, rel l a -> rel (indent_by l n) (a_set a n).
Proof. intros l a n []. constructor; cbn; auto. Qed.
