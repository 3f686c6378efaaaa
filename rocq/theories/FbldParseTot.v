(** * The parser ends, and fails no assertion. *)
From Coq Require Import ZArith String Ascii List Arith Lia Bool.
From Verif Require Import FbldModel FbldSpec FbldParse FbldLex FbldParseSim.
Import ListNotations.
Local Open Scope list_scope.
Notation length := List.length.
Notation bind := FbldModel.bind.

(** ** From the inputs to one text *)
Lemma open_from : forall fs l n, fs <> [] -> open_next fs l = open_next fs (mk_lex (files l) (fin l) n (indent l) (next l)).
Proof. intros [|[|c t] r] l n N; [congruence| |]; reflexivity. Qed.
Lemma ends_concat : forall fs, Forall ends fs -> ends (concat fs).
Proof.
  intros fs F. induction F as [|t fs H F IH]; [left; auto|]. cbn. destruct IH as [->|[u ->]]; [rewrite app_nil_r; auto|]. right. exists (t ++ u). apply app_assoc.
Qed.
Lemma first_is : forall inputs, inputs <> [] -> Forall ends inputs -> ~ In END (concat inputs) -> (forall r, concat inputs <> SP :: NL :: r) ->
  exists l, is (start_lex inputs) [NL] = Ok (a_isb (mk_a 1 0 (concat inputs)) [NL], l) /\ rel l (mk_a 1 0 (concat inputs)).
Proof.
  intros inputs NE F N NS. set (a := mk_a 1 0 (concat inputs)). set (l1 := mk_lex inputs [] 1 0 []).
  assert (R : rel l1 a) by (constructor; cbn; auto; left; auto).
  unfold is. cbn [is_from]. unfold next_fetched. cbn [start_lex next length Nat.leb indent column firstn columns fold_left]. cbn [fetch]. change (length []) with 0. cbn [Nat.eqb].
  assert (G0 : get_c (start_lex inputs) = get_c l1) by (unfold get_c, start_lex, l1; cbn [fin next files]; rewrite (open_from inputs _ 1 NE); reflexivity).
  change (0 + 1 - 0) with 1. change (fetch 1 (start_lex inputs) 0) with (let '(e, l1) := let '(c, l1) := get_c (start_lex inputs) in if (c =? END)%Z then (true, l1) else (false, mk_lex (files l1) (fin l1) (column l1) (indent l1) (next l1 ++ [c])) in
    if e then (END, 0, l1) else let c := nth 0 (next l1) END in if (c =? SP)%Z then fetch 0 l1 1 else if (c =? NL)%Z then (NL, 0, l1) else (END, 0, l1)). rewrite G0.
  destruct (get_rel l1 a 0 R eq_refl (or_introl eq_refl)) as [c [l2 [G H]]]. rewrite G.
  unfold a_isb, peek. change (a_ind a + 1 - a_col a) with 0. cbn [skipn] in H.
  destruct H as [[-> [H1 [H2 H3]]]|[H1 [H2 H3]]].
  - rewrite H1. cbn. exists l2. split; auto.
  - apply Z.eqb_neq in H1. rewrite H1. set (l3 := mk_lex (files l2) (fin l2) (column l2) (indent l2) (next l2 ++ [c])) in *. assert (N3 : next l3 = [c]) by (change (next l2 ++ [c] = [c]); rewrite H3; reflexivity).
    pose proof (rest_nth l3 a 0 H2 ltac:(rewrite N3; cbn; lia)) as Q. rewrite N3 in *. cbn [skipn nth] in Q. rewrite Q. cbn [look nth].
    destruct (Z.eqb_spec c SP) as [->|E].
    + destruct (fetch_rel 0 l3 a 1 H2 ltac:(rewrite N3; cbn; lia)) as [d [j [l4 [F4 [R4 [[n [LK ->]] B]]]]]]; [right; rewrite N3; cbn; discriminate|]. rewrite F4. cbn [bind].
      rewrite Q in LK. cbn [skipn] in LK. assert (ND : (NL =? d)%Z = false).
      { apply Z.eqb_neq. intros <-. unfold a in LK, Q. cbn [a_rest] in LK, Q. destruct (concat inputs) as [|x [|y t]]; cbn in LK; try discriminate. injection Q as ->. injection LK as -> _. eapply NS. reflexivity. }
      rewrite ND. cbn. exists l4. destruct (d =? END)%Z; split; auto.
    + destruct (Z.eqb_spec c NL) as [->|EN].
      * cbn. exists l3. split; auto.
      * cbn [bind]. change (END =? END)%Z with true. cbv iota. exists l3. assert (EN' : (NL =? c)%Z = false) by (apply Z.eqb_neq; congruence). rewrite H1, EN'. split; auto.
Qed.

Theorem parse_one_text : forall f inputs, Forall ends inputs -> ~ In END (concat inputs) -> (forall r, concat inputs <> SP :: NL :: r) ->
  fbld_parse f inputs = parse_ops a_ops f (mk_a 1 0 (concat inputs)).
Proof.
  intros f inputs F N NS. destruct inputs as [|x inputs].
  { destruct f as [|f]; reflexivity. }
  assert (P : same_lex (p_blank lex_ops f (start_lex (x :: inputs))) (p_blank a_ops f (mk_a 1 0 (concat (x :: inputs))))).
  { destruct f as [|f]; [reflexivity|]. destruct (first_is (x :: inputs)) as [l [E R]]; auto; [discriminate|]. cbn [p_blank].
    change (o_is lex_ops (start_lex (x :: inputs)) [NL]) with (is (start_lex (x :: inputs)) [NL]). rewrite E. cbn [bind]. cbn [o_is a_ops]. cbn [bind]. fold (o_adv a_ops). 
    destruct (a_isb _ [NL]); [|exact R]. eapply sl_bindl; [apply so_adv; exact R|]. intros. apply sim_blank. auto. }
  unfold fbld_parse, parse_ops. destruct (p_blank lex_ops f (start_lex (x :: inputs))) as [l|w], (p_blank a_ops f (mk_a 1 0 (concat (x :: inputs)))) as [m|w']; cbn in P; try tauto; [|cbn; congruence].
  cbn [bind]. pose proof (proj2 (sim_block f) l m [] P) as B. destruct (p_block lex_ops f l []) as [[y l']|w], (p_block a_ops f m []) as [[y' m']|w']; cbn in B; try tauto; cbn [bind]; [destruct B as [-> _]; auto|congruence].
Qed.

(** ** The end *)
Definition nl_ok (a : alex) : Prop := ends (a_rest a) /\ ~ In END (a_rest a).
Definition mid (a : alex) : Prop := a_ind a + 1 <= a_col a /\ a_rest a <> [].
Definition size (a : alex) : nat := length (a_rest a).
Definition res {A} (x : out (A * alex)) (Q : A -> alex -> Prop) : Prop := match x with Ok (a, l) => Q a l | Stop _ => False end.
Definition step (a a' : alex) : Prop := nl_ok a' /\ size a' <= size a /\ a_ind a' = a_ind a.

Lemma mid_peek : forall a, nl_ok a -> mid a -> fst (peek a) <> END.
Proof.
  intros a [_ N] [M R]. unfold peek. replace (a_ind a + 1 - a_col a) with 0 by lia. destruct (a_rest a) as [|c t]; [congruence|]. cbn. intros ->. apply N. left. auto.
Qed.
Lemma adv_ok : forall a, nl_ok a -> fst (peek a) <> END -> a_advance a = Ok (a_next a) /\ nl_ok (a_next a) /\ size (a_next a) < size a /\ a_ind (a_next a) = a_ind a /\ (fst (peek a) <> NL -> mid (a_next a)).
Proof.
  intros a [E N] P. unfold a_advance, a_next, nl_ok, size, mid. destruct (peek a) as [c n] eqn:LK. cbn [fst] in *. pose proof P as P'. apply Z.eqb_neq in P'. rewrite P'. unfold peek in LK.
  destruct (look_nth _ _ _ _ LK P) as [r SK]. destruct (skipn_cons _ _ _ _ SK) as [S1 S2]. rewrite S1. cbn [a_rest a_ind a_col].
  assert (AR : a_rest a = firstn n (a_rest a) ++ c :: r) by (rewrite <- SK, firstn_skipn; auto).
  split; auto. split; [split|split; [|split; auto]].
  - destruct r; [left; auto|]. apply ends_app with (a := firstn n (a_rest a) ++ [c]); [rewrite <- app_assoc; cbn [app]; rewrite <- AR; auto|discriminate].
  - intros I. apply N. rewrite AR. apply in_or_app. right. right. auto.
  - rewrite AR, app_length. cbn. lia.
  - intros NN. split.
    + rewrite S2, columns_app. pose proof (columns_spaces _ _ _ _ (a_col a) LK P NN). unfold columns at 1. cbn [fold_left]. apply Z.eqb_neq in NN. rewrite NN. lia.
    + intros ->. rewrite AR in E. destruct E as [E|[u E]]; [destruct (firstn n (a_rest a)); discriminate|]. apply app_inj_tail in E. destruct E as [_ E]. congruence.
Qed.
Lemma is_peek : forall a x r, a_isb a (x :: r) = true -> fst (peek a) = x /\ x <> END.
Proof.
  intros a x r H. cbn in H. destruct (peek a) as [c n]. apply andb_prop in H. destruct H as [H _]. apply andb_prop in H. destruct H as [H1 H2]. apply Z.eqb_eq in H2. subst c. split; auto. intros ->. discriminate.
Qed.
Lemma is_adv : forall a x r, nl_ok a -> a_isb a (x :: r) = true -> a_advance a = Ok (a_next a) /\ nl_ok (a_next a) /\ size (a_next a) < size a /\ a_ind (a_next a) = a_ind a /\ (x <> NL -> mid (a_next a)) /\ (x <> NL -> r <> [] -> ~ In END r -> a_isb (a_next a) r = true).
Proof.
  intros a x r K H. destruct (is_peek _ _ _ H) as [P NE]. destruct (adv_ok a K) as [A [B [C [D E]]]]; [rewrite P; auto|]. rewrite P in E. split; auto. split; auto. split; auto. split; auto. split; auto.
  intros NN NR NI. specialize (E NN). destruct E as [E _]. cbn [a_isb] in H. unfold a_next in *. destruct (peek a) as [c n]. cbn [fst] in P. subst c. cbn [a_rest a_col a_ind] in *. apply andb_prop in H. destruct H as [_ H].
  destruct r as [|y r]; [congruence|]. cbn [a_isb]. unfold peek. cbn [a_rest a_col a_ind]. replace (a_ind a + 1 - columns (a_col a) (firstn (S n) (a_rest a))) with 0 by lia.
  destruct (skipn (S n) (a_rest a)) as [|z t]; [discriminate|]. cbn [prefix] in H. apply andb_prop in H. destruct H as [H1 H2]. apply Z.eqb_eq in H1. subst z. cbn [look skipn].
  rewrite Z.eqb_refl, H2. destruct (Z.eqb_spec y END) as [->|]; auto. destruct NI. left. auto.
Qed.
Lemma step_refl : forall a, nl_ok a -> step a a. Proof. intros. repeat split; auto; apply H. Qed.
Lemma step_trans : forall a b c, step a b -> step b c -> step a c.
Proof. intros a b c [A1 [A2 A3]] [B1 [B2 B3]]. split; auto. split; [lia|congruence]. Qed.
Lemma step_next : forall a, nl_ok (a_next a) -> size (a_next a) < size a -> a_ind (a_next a) = a_ind a -> step a (a_next a).
Proof. intros. unfold step. intuition lia. Qed.
Lemma res_weak : forall {A} (x : out (A * alex)) (P Q : A -> alex -> Prop), res x P -> (forall a l, P a l -> Q a l) -> res x Q.
Proof. intros A [[a l]|w] P Q H K; cbn in *; auto. Qed.
Lemma res_bind : forall {A B} (x : out (A * alex)) (k : A * alex -> out (B * alex)) P Q, res x P -> (forall a l, P a l -> res (k (a, l)) Q) -> res (bind x k) Q.
Proof. intros A B [[a l]|w] k P Q H K; cbn in *; auto; tauto. Qed.
Ltac ops := cbn [o_is o_char o_adv o_col o_indent o_set a_ops bind].

Lemma t_name : forall f a acc, size a < f -> nl_ok a -> res (p_name a_ops f a acc) (fun _ a' => step a a' /\ (mid a -> mid a')).
Proof.
  induction f as [|f IH]; intros a acc L K; [lia|]. cbn [p_name]. ops. destruct (is_name_char (fst (peek a))) eqn:E; [|cbn; split; auto; apply step_refl; auto].
  assert (NE : fst (peek a) <> END) by (intros Q; rewrite Q in E; discriminate). assert (NN : fst (peek a) <> NL) by (intros Q; rewrite Q in E; discriminate).
  destruct (adv_ok a K NE) as [A [B [C [D M]]]]. rewrite A. cbn [bind]. eapply res_weak; [apply IH; [lia|auto]|]. intros _ a' [S1 M1]. split; [eapply step_trans; [apply step_next; eauto|exact S1]|auto].
Qed.
Lemma t_literal : forall f a n acc, size a < f -> nl_ok a -> res (p_literal a_ops f a n acc) (fun y a' => step a a' /\ (y <> None -> a_isb a' (txt "}") = true)).
Proof.
  induction f as [|f IH]; intros a n acc L K; [lia|]. cbn [p_literal].
  assert (REST : res (bind (o_char a_ops a) (fun p => let '(e, l2) := p in if (e =? END)%Z then Ok (None, l2) else
        bind (o_is a_ops l2 (txt "{")) (fun p => let '(b1, l3) := p in bind (o_is a_ops l3 (txt "}")) (fun p => let '(b2, l4) := p in
        let n1 := if b1 then S n else n in let n2 := if b2 then pred n1 else n1 in
        bind (o_char a_ops l4) (fun p => let '(c, l5) := p in bind (o_adv a_ops l5) (fun l6 => p_literal a_ops f l6 n2 (acc ++ [c]))))))) (fun y a' => step a a' /\ (y <> None -> a_isb a' (txt "}") = true))).
  { ops. destruct (Z.eqb_spec (fst (peek a)) END) as [E|E]; [cbn; split; [apply step_refl; auto|congruence]|]. cbv zeta. destruct (adv_ok a K E) as [A [B [C [D M]]]]. rewrite A. cbn [bind].
    eapply res_weak; [apply IH; [lia|auto]|]. intros y a' [S1 M1]. split; [eapply step_trans; [apply step_next; eauto|exact S1]|auto]. }
  destruct (0 <? n); cbn [bind]; [exact REST|]. cbn [o_is a_ops bind]. destruct (a_isb a (txt "}")) eqn:E; [cbn; split; [apply step_refl; auto|auto]|exact REST].
Qed.
Lemma t_inline : forall f, (forall a acc, size a < f -> nl_ok a -> res (p_args a_ops f a acc) (fun y a' => step a a' /\ (y <> None -> mid a -> mid a'))) /\
  (forall a ctx chars ds, size a < f -> nl_ok a -> (ctx = SameLine -> mid a) -> res (p_inline a_ops f a ctx chars ds)
    (fun y a' => step a a' /\ (y <> None -> ctx = InlineArg -> a_isb a' (txt "]") = true) /\ (ctx = ImplicitBlock -> fst (peek a) <> END -> a_isb a [NL] = false -> y <> None -> size a' < size a))).
Proof.
  induction f as [|f [IH1 IH2]]; [split; intros; lia|]. split.
  - intros a acc L K. cbn [p_args]. ops. 
    assert (M0 : forall b : bool, (if b then Ok (true, a) else o_is a_ops a (txt "{")) = Ok ((b || a_isb a (txt "{"))%bool, a)) by (intros [|]; reflexivity).
    rewrite M0. cbn [bind]. destruct (a_isb a (txt "[") || a_isb a (txt "{"))%bool eqn:E0; cbn [negb]; [|cbn; split; auto; apply step_refl; auto].
    destruct (a_isb a (txt "{")) eqn:E1.
    + destruct (is_adv a _ _ K E1) as [A [B [C [D [M _]]]]]. rewrite A. cbn [bind]. eapply res_bind; [apply t_literal; [lia|auto]|]. intros [t|] a1 [S1 M1].
      * assert (Q : a_isb a1 (txt "}") = true) by (apply M1; discriminate). destruct S1 as [K1 [S1 I1]]. destruct (is_adv a1 _ _ K1 Q) as [A2 [B2 [C2 [D2 [M2 _]]]]]. rewrite A2. cbn [bind].
        eapply res_weak; [apply IH1; [lia|auto]|]. intros y a' [S3 M3]. split; [|intros Y _; apply M3; auto; apply M2; discriminate].
        eapply step_trans; [apply step_next; eauto|]. eapply step_trans; [split; [exact K1|split; [exact S1|exact I1]]|]. eapply step_trans; [apply step_next; eauto|exact S3].
      * cbn. split; [eapply step_trans; [apply step_next; eauto|exact S1]|congruence].
    + cbn [orb] in E0. rewrite orb_false_r in E0. rewrite E0. destruct (is_adv a _ _ K E0) as [A [B [C [D [M _]]]]]. rewrite A. cbn [bind].
      eapply res_bind; [apply IH2; [lia|auto|discriminate]|]. intros [d|] a1 [S1 [M1 _]].
      * rewrite (M1 ltac:(discriminate) eq_refl). assert (Q := M1 ltac:(discriminate) eq_refl). destruct S1 as [K1 [S1 I1]]. destruct (is_adv a1 _ _ K1 Q) as [A2 [B2 [C2 [D2 [M2 _]]]]]. rewrite A2. cbn [bind].
        eapply res_weak; [apply IH1; [lia|auto]|]. intros y a' [S3 M3]. split; [|intros Y _; apply M3; auto; apply M2; discriminate].
        eapply step_trans; [apply step_next; eauto|]. eapply step_trans; [split; [exact K1|split; [exact S1|exact I1]]|]. eapply step_trans; [apply step_next; eauto|exact S3].
      * cbn. split; [eapply step_trans; [apply step_next; eauto|exact S1]|congruence].
  - intros a ctx chars ds L K SL.
    assert (REST : fst (peek a) <> END -> (ctx = SameLine -> fst (peek a) <> NL) ->
      @res (option doc) (bind (o_is a_ops a (txt "@")) (fun p => let '(b, l1) := p in
        if b then bind (o_adv a_ops l1) (fun l2 => bind (p_name a_ops f l2 []) (fun p => let '(x, l3) := p in bind (p_args a_ops f l3 []) (fun p => let '(y, l4) := p in
          match y with None => Ok (None, l4) | Some args => p_inline a_ops f l4 ctx [] (ds ++ plains chars ++ [Command x args]) end)))
        else bind (o_is a_ops l1 (txt "\")) (fun p => let '(b2, l2) := p in
          if b2 then bind (o_adv a_ops l2) (fun l3 => bind (o_char a_ops l3) (fun p => let '(c, l4) := p in
            match escaped c with None => Ok (None, l4) | Some c' => bind (o_adv a_ops l4) (fun l5 => p_inline a_ops f l5 ctx (chars ++ [c']) ds) end))
          else bind (o_char a_ops l2) (fun p => let '(c, l3) := p in bind (o_adv a_ops l3) (fun l4 => p_inline a_ops f l4 ctx (chars ++ [c]) ds)))))
      (fun y a' => step a a' /\ (y <> None -> ctx = InlineArg -> a_isb a' (txt "]") = true) /\ (y <> None -> size a' < size a))).
    { intros NE NN. cbn [o_is a_ops bind]. destruct (a_isb a (txt "@")) eqn:E1.
      - destruct (is_adv a _ _ K E1) as [A [B [C [D [M _]]]]]. cbn [o_adv a_ops]. rewrite A. cbn [bind]. fold (@p_name alex).
        assert (M1 : mid (a_next a)) by (apply M; discriminate).
        eapply res_bind; [apply t_name; [lia|auto]|]. intros x a1 [[K1 [S1 I1]] M2].
        eapply res_bind; [apply IH1; [lia|auto]|]. intros [args|] a2 [[K2 [S2 I2]] M3].
        + eapply res_weak; [apply IH2; [lia|auto|intros; apply M3; [discriminate|auto]]|]. intros y a3 [[K3 [S3 I3]] [M4 _]]. split; [split; [auto|split; [lia|congruence]]|]. split; auto. intros; lia.
        + cbn. split; [split; [auto|split; [lia|congruence]]|]. split; congruence.
      - destruct (a_isb a (txt "\")) eqn:E2.
        + destruct (is_adv a _ _ K E2) as [A [B [C [D [M _]]]]]. cbn [o_adv o_char a_ops]. rewrite A. cbn [bind].
          destruct (escaped (fst (peek (a_next a)))) as [c'|] eqn:ES; [|cbn; split; [split; [auto|split; [lia|congruence]]|split; congruence]].
          assert (NE2 : fst (peek (a_next a)) <> END) by (intros Q; rewrite Q in ES; discriminate). assert (NN2 : fst (peek (a_next a)) <> NL) by (intros Q; rewrite Q in ES; discriminate).
          destruct (adv_ok _ B NE2) as [A2 [B2 [C2 [D2 M2]]]]. rewrite A2. cbn [bind].
          eapply res_weak; [apply IH2; [lia|auto|auto]|]. intros y a3 [[K3 [S3 I3]] [M4 _]]. split; [split; [auto|split; [lia|congruence]]|]. split; auto. intros; lia.
        + destruct (adv_ok a K NE) as [A [B [C [D M]]]]. cbn [o_adv o_char a_ops bind]. rewrite A. cbn [bind].
          eapply res_weak; [apply IH2; [lia|auto|auto]|]. intros y a3 [[K3 [S3 I3]] [M4 _]]. split; [split; [auto|split; [lia|congruence]]|]. split; auto. intros; lia. }
    assert (DONE : forall y, (ctx = InlineArg -> a_isb a (txt "]") = true) -> (ctx = ImplicitBlock -> fst (peek a) <> END -> a_isb a [NL] = false -> False) ->
      res (Ok (y, a)) (fun (y : option doc) a' => step a a' /\ (y <> None -> ctx = InlineArg -> a_isb a' (txt "]") = true) /\ (ctx = ImplicitBlock -> fst (peek a) <> END -> a_isb a [NL] = false -> y <> None -> size a' < size a))).
    { intros y H1 H2. cbn. split; [apply step_refl; auto|]. split; auto. intros. exfalso; auto. }
    destruct ctx; cbn [p_inline].
    + cbn [o_is o_char a_ops bind]. destruct (a_isb a (txt "]")) eqn:E1; [apply DONE; auto; discriminate|].
      destruct (Z.eqb_spec (fst (peek a)) END) as [E2|E2]; [cbn; split; [apply step_refl; auto|]; split; congruence|].
      eapply res_weak; [apply REST; auto; discriminate|]. intros y a' [H1 [H2 H3]]. auto.
    + cbn [o_is o_char o_col a_ops bind].
      destruct (a_col a =? 1) eqn:EC; cbn [bind].
      * destruct (a_isb a [NL]) eqn:E1; [apply DONE; congruence|].
        destruct (Z.eqb_spec (fst (peek a)) END) as [E2|E2]; [apply DONE; congruence|].
        eapply res_weak; [apply REST; auto; discriminate|]. intros y a' [H1 [H2 H3]]. auto.
      * destruct (Z.eqb_spec (fst (peek a)) END) as [E2|E2]; [apply DONE; congruence|].
        eapply res_weak; [apply REST; auto; discriminate|]. intros y a' [H1 [H2 H3]]. auto.
    + cbn [o_is o_char o_col a_ops bind]. destruct (a_isb a [NL]) eqn:E1; [apply DONE; congruence|].
      destruct (a_isb a (txt " @" ++ [NL])) eqn:E2; [apply DONE; congruence|].
      destruct (a_isb a (txt " @@" ++ [NL])) eqn:E3; [apply DONE; congruence|].
      assert (NE : fst (peek a) <> END) by (apply mid_peek; auto).
      eapply res_weak; [apply REST; auto|]. { intros _ Q. revert E1 Q. unfold a_isb. destruct (peek a) as [c n]. cbn [fst]. intros E1 ->. cbn in E1. discriminate. }
      intros y a' [H1 [H2 H3]]. split; auto.
Qed.
Lemma eat3 : forall a x y z, nl_ok a -> a_isb a [x; y; z] = true -> x <> NL -> y <> NL -> ~ In END [x; y; z] ->
  exists a1 a2 a3, a_advance a = Ok a1 /\ a_advance a1 = Ok a2 /\ a_advance a2 = Ok a3 /\ nl_ok a3 /\ size a3 < size a.
Proof.
  intros a x y z K H X Y E. cbn in E. destruct (is_adv a _ _ K H) as [A1 [K1 [C1 [_ [_ D1]]]]]. specialize (D1 X ltac:(discriminate) ltac:(cbn; tauto)).
  destruct (is_adv _ _ _ K1 D1) as [A2 [K2 [C2 [_ [_ D2]]]]]. specialize (D2 Y ltac:(discriminate) ltac:(cbn; tauto)).
  destruct (is_adv _ _ _ K2 D2) as [A3 [K3 [C3 _]]]. do 3 eexists. split; [exact A1|]. split; [exact A2|]. split; [exact A3|]. split; auto. lia.
Qed.
Lemma eat4 : forall a x y z w, nl_ok a -> a_isb a [x; y; z; w] = true -> x <> NL -> y <> NL -> z <> NL -> ~ In END [x; y; z; w] ->
  exists a1 a2 a3 a4, a_advance a = Ok a1 /\ a_advance a1 = Ok a2 /\ a_advance a2 = Ok a3 /\ a_advance a3 = Ok a4 /\ nl_ok a4 /\ size a4 < size a.
Proof.
  intros a x y z w K H X Y Z E. cbn in E. destruct (is_adv a _ _ K H) as [A1 [K1 [C1 [_ [_ D1]]]]]. specialize (D1 X ltac:(discriminate) ltac:(cbn; tauto)).
  destruct (eat3 _ _ _ _ K1 D1 Y Z ltac:(cbn; tauto)) as [a2 [a3 [a4 [A2 [A3 [A4 [K4 C4]]]]]]]. do 4 eexists. split; [exact A1|]. split; [exact A2|]. split; [exact A3|]. split; [exact A4|]. split; auto. lia.
Qed.
Lemma t_blank : forall f a, size a < f -> nl_ok a -> exists a', p_blank a_ops f a = Ok a' /\ nl_ok a' /\ size a' <= size a /\ a_isb a' [NL] = false.
Proof.
  induction f as [|f IH]; intros a L K; [lia|]. cbn [p_blank]. ops. destruct (a_isb a [NL]) eqn:E; [|exists a; auto].
  destruct (is_adv a _ _ K E) as [A [B [C _]]]. rewrite A. cbn [bind]. destruct (IH (a_next a)) as [a' [E2 [K2 [S2 I2]]]]; auto; [lia|]. exists a'. split; auto. split; auto. split; auto. lia.
Qed.
Lemma t_lines : forall f a acc, size a < f -> nl_ok a -> res (p_lines a_ops f a acc) (fun _ a' => nl_ok a' /\ size a' <= size a).
Proof.
  induction f as [|f IH]; intros a acc L K; [lia|]. cbn [p_lines]. ops. destruct (Z.eqb_spec (fst (peek a)) END) as [E|E]; [cbn; auto|].
  destruct (adv_ok a K E) as [A [B [C _]]]. rewrite A. cbn [bind]. eapply res_weak; [apply IH; [lia|auto]|]. intros _ a' [K' S']. split; auto. lia.
Qed.
Lemma res_of_ex : forall {B} (x : out alex) (k : alex -> out (B * alex)) a' Q, x = Ok a' -> res (k a') Q -> res (bind x k) Q.
Proof. intros B x k a' Q -> H. exact H. Qed.
Lemma bind_is : forall {B} a s (k : bool * alex -> out (B * alex)) Q, res (k (a_isb a s, a)) Q -> res (bind (o_is a_ops a s) k) Q.
Proof. intros. exact H. Qed.
Lemma nl_set : forall a n, nl_ok a -> nl_ok (a_set a n) /\ size (a_set a n) = size a. Proof. intros a n K. split; auto. Qed.
Ltac vals := cbn; intuition (discriminate || congruence).

Lemma t_block : forall f, (forall a x acc, size a + 2 <= f -> nl_ok a -> res (p_command a_ops f a x acc) (fun _ a' => nl_ok a' /\ size a' <= size a)) /\
  (forall a ds, size a + 2 <= f -> nl_ok a -> a_isb a [NL] = false -> res (p_block a_ops f a ds) (fun _ a' => nl_ok a' /\ size a' <= size a)).
Proof.
  induction f as [|f [IH1 IH2]]; [split; intros; lia|]. split.
  - intros a x acc L K.
    assert (FIN : forall a1 acc, nl_ok a1 -> size a1 < size a -> res (bind (p_blank a_ops f a1) (fun l0 => bind (p_block a_ops f l0 []) (fun p => let '(y, l1) := p in
        match y with None => Ok (None, l1) | Some d => Ok (Some (Command x (acc ++ [d])), l1) end))) (fun _ a' => nl_ok a' /\ size a' <= size a)).
    { intros a1 acc' K1 S1. destruct (t_blank f a1) as [a2 [E2 [K2 [S2 N2]]]]; auto; [lia|]. eapply res_of_ex; [exact E2|].
      eapply res_bind; [apply IH2; auto; lia|]. intros [d|] a3 [K3 S3]; cbn; split; auto; lia. }
    cbn [p_command]. eapply res_bind; [apply (proj1 (t_inline f)); [lia|auto]|]. intros [args|] a0 [[K0 [S0 _]] _]; [|cbn; auto].
    apply bind_is. cbv beta iota.
    eapply res_bind with (P := fun b (a' : alex) => a' = a0 /\ (b = false -> a_isb a0 (txt " ") = true)).
    { destruct (a_isb a0 (txt " ")) eqn:E; cbn; intuition congruence. }
    intros b2 ? [-> B2].
    eapply res_bind with (P := fun b (a' : alex) => a' = a0 /\ (b = false -> a_isb a0 (txt " ") = true)).
    { destruct b2; cbn; intuition congruence. }
    intros b3 ? [-> B3].
    eapply res_bind with (P := fun (y : option (list doc)) a4 => nl_ok a4 /\ size a4 <= size a).
    { destruct b3; [cbn; split; auto; lia|]. destruct (is_adv a0 _ _ K0 (B3 eq_refl)) as [A [B [C [_ [M _]]]]]. eapply res_of_ex; [exact A|].
      eapply res_bind; [apply (proj2 (t_inline f)); [lia|auto|intros; apply M; discriminate]|]. intros d a5 [[K5 [S5 _]] _]. cbn. split; auto. lia. }
    intros [same|] a4 [K4 S4]; [|cbn; auto]. apply bind_is. cbv beta iota.
    destruct (a_isb a4 (txt " @@" ++ [NL])) eqn:E4.
    { destruct (eat4 a4 _ _ _ _ K4 E4) as [a5 [a6 [a7 [a8 [A5 [A6 [A7 [A8 [K8 S8]]]]]]]]]; try discriminate; [vals|].
      eapply res_of_ex; [exact A5|]. eapply res_of_ex; [exact A6|]. eapply res_of_ex; [exact A7|]. eapply res_of_ex; [exact A8|]. apply FIN; auto. lia. }
    apply bind_is. cbv beta iota.
    eapply res_bind with (P := fun (y : option (list doc)) a7 => nl_ok a7 /\ size a7 <= size a /\ (y <> None -> size a7 < size a)).
    { destruct (a_isb a4 (txt " @" ++ [NL])) eqn:E5.
      - destruct (eat3 a4 _ _ _ K4 E5) as [a5 [a6 [a7 [A5 [A6 [A7 [K7 S7]]]]]]]; try discriminate; [vals|].
        eapply res_of_ex; [exact A5|]. eapply res_of_ex; [exact A6|]. eapply res_of_ex; [exact A7|]. 
        eapply res_bind; [apply t_lines; [change (size a7 < f); lia|exact K7]|]. intros t a8 [K8 S8]. change (size (o_set a_ops a7 (S (o_indent a_ops a7)))) with (size a7) in S8. split; [exact K8|]. change (size (o_set a_ops a8 (pred (o_indent a_ops a8)))) with (size a8). split; intros; lia.
      - apply bind_is. cbv beta iota. destruct (a_isb a4 [NL]) eqn:E6; [|cbn; split; auto; split; [auto|congruence]].
        destruct (is_adv a4 _ _ K4 E6) as [A [B [C _]]]. eapply res_of_ex; [exact A|]. split; auto. split; intros; lia. }
    intros [lit|] a7 [K7 [S7 P7]]; [|cbn; auto]. specialize (P7 ltac:(discriminate)). apply bind_is. cbv beta iota.
    eapply res_bind with (P := fun (y : option (list doc)) a9 => nl_ok a9 /\ size a9 < size a).
    { destruct (a_isb a7 (txt " ")) eqn:E8; [|cbn; auto].
      destruct (t_blank f (a_set a7 (S (a_ind a7)))) as [a8 [E9 [K8 [S8 N8]]]]; [change (size a7 < f); lia|exact K7|]. change (size (a_set a7 (S (a_ind a7)))) with (size a7) in S8. eapply res_of_ex; [exact E9|].
      eapply res_bind; [apply IH2; auto; lia|]. intros [d|] a9 [K9 S9]; [|cbn; split; auto; lia]. split; [exact K9|]. change (size (o_set a_ops a9 (pred (o_indent a_ops a9)))) with (size a9). lia. }
    intros [arg|] a9 [K9 S9]; [|cbn; split; auto; lia]. apply bind_is. cbv beta iota.
    destruct (a_isb a9 (txt "@@" ++ [NL])) eqn:E10.
    { destruct (eat3 a9 _ _ _ K9 E10) as [b5 [b6 [b7 [A5 [A6 [A7 [K8 S8]]]]]]]; try discriminate; [vals|].
      eapply res_of_ex; [exact A5|]. eapply res_of_ex; [exact A6|]. eapply res_of_ex; [exact A7|]. apply FIN; auto. lia. }
    apply bind_is. cbv beta iota.
    eapply res_bind with (P := fun c (a' : alex) => a' = a9 /\ (c = true -> fst (peek a9) <> END)).
    { destruct (a_isb a9 (txt "@" ++ [NL])) eqn:E1; [destruct (is_peek _ _ _ E1) as [-> Q]; cbn; auto|]. destruct (a_isb a9 (txt "@ ")) eqn:E; cbn [o_is a_ops res]; rewrite E; split; auto; try discriminate. intros _. destruct (is_peek _ _ _ E) as [-> Q]. exact Q. }
    intros c2 ? [-> C2].
    eapply res_bind with (P := fun c (a' : alex) => a' = a9 /\ (c = true -> fst (peek a9) <> END)).
    { destruct c2; [cbn; auto|]. destruct (a_isb a9 (txt "@[")) eqn:E; cbn [o_is a_ops res]; rewrite E; split; auto; try discriminate. intros _. destruct (is_peek _ _ _ E) as [-> Q]. exact Q. }
    intros c4 ? [-> C4].
    eapply res_bind with (P := fun c (a' : alex) => a' = a9 /\ (c = true -> fst (peek a9) <> END)).
    { destruct c4; [cbn; auto|]. destruct (a_isb a9 (txt "@{")) eqn:E; cbn [o_is a_ops res]; rewrite E; split; auto; try discriminate. intros _. destruct (is_peek _ _ _ E) as [-> Q]. exact Q. }
    intros c5 ? [-> C5]. destruct c5; [|cbn; split; auto; lia].
    destruct (adv_ok a9 K9 (C5 eq_refl)) as [A [B [C _]]]. eapply res_of_ex; [exact A|]. eapply res_weak; [apply IH1; auto; lia|]. intros _ a' [K' S']. split; auto. lia.
  - intros a ds L K N.
    assert (MORE : forall (y : option doc) a1, nl_ok a1 -> size a1 <= size a -> (y <> None -> size a1 < size a) -> res (match y with
      | None => Ok (None, a1)
      | Some d => bind (p_blank a_ops f a1) (fun l1 => p_block a_ops f l1 (ds ++ [d]))
      end) (fun _ a' => nl_ok a' /\ size a' <= size a)).
    { intros [d|] a1 K1 S0 S1; [|cbn; auto]. specialize (S1 ltac:(discriminate)). destruct (t_blank f a1) as [a2 [E2 [K2 [S2 N2]]]]; auto; [lia|]. eapply res_of_ex; [exact E2|].
      eapply res_weak; [apply IH2; auto; lia|]. intros _ a3 [K3 S3]; cbn; split; auto; lia. }
    assert (BLK : forall a1, nl_ok a1 -> size a1 <= size a -> (size a1 < size a \/ a1 = a /\ fst (peek a) <> END) -> res (bind (p_inline a_ops f a1 ImplicitBlock [] []) (fun p => let '(y, l1) := p in
      match (match y with Some d => Some (block_of d) | None => None end) with
      | None => Ok (None, l1)
      | Some d => bind (p_blank a_ops f l1) (fun l1 => p_block a_ops f l1 (ds ++ [d]))
      end)) (fun _ a' => nl_ok a' /\ size a' <= size a)).
    { intros a1 K1 S1 W. eapply res_bind; [apply (proj2 (t_inline f)); [lia|auto|discriminate]|]. intros y a2 [[K2 [S2 _]] [_ P]]. apply MORE; auto; [lia|].
      intros Y. destruct W as [W|[-> W]]; [lia|]. apply P; auto. destruct y; congruence. }
    cbn [p_block]. eapply res_bind with (P := fun c a' => c = fst (peek a) /\ a' = a); [cbn; auto|]. intros c a' [-> ->].
    destruct (Z.eqb_spec (fst (peek a)) END) as [E|E]; [cbn; auto|].
    eapply res_bind with (P := fun b a' => b = a_isb a (txt "@@") /\ a' = a); [cbn; auto|]. intros b a' [-> ->].
    destruct (a_isb a (txt "@@")) eqn:E1.
    + destruct (is_adv a _ _ K E1) as [A [B [C _]]]. eapply res_of_ex; [exact A|]. apply BLK; auto; lia.
    + eapply res_bind with (P := fun b a' => b = a_isb a (txt "@") /\ a' = a); [cbn; auto|]. intros b a' [-> ->].
      destruct (a_isb a (txt "@")) eqn:E2.
      * destruct (is_adv a _ _ K E2) as [A [B [C _]]]. eapply res_of_ex; [exact A|]. eapply res_bind; [apply t_name; [lia|auto]|]. intros x a1 [[K1 [S1 _]] _].
        eapply res_bind; [apply IH1; auto; lia|]. intros y a2 [K2 S2]. apply MORE; auto; lia.
      * apply BLK; auto.
Qed.
Theorem parse_ops_ends : forall f a, size a + 2 <= f -> nl_ok a -> exists y, parse_ops a_ops f a = Ok y.
Proof.
  intros f a L K. unfold parse_ops. destruct (t_blank f a) as [a' [E [K' [S' N']]]]; [lia|auto|]. rewrite E. cbn [bind].
  assert (B := proj2 (t_block f) a' [] ltac:(lia) K' N'). destruct (p_block a_ops f a' []) as [[y l]|w]; [exists y; reflexivity|destruct B].
Qed.
