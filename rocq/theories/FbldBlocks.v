(** * Block arguments. *)
From Coq Require Import ZArith String Ascii List Arith Lia Bool.
From Verif Require Import FbldModel FbldSpec FbldParse FbldLex FbldParseTot FbldParseMono FbldParseSim2 FbldGrammar FbldRound FbldIndent.
Import ListNotations.
Local Open Scope list_scope.
Notation length := List.length.
Notation bind := FbldModel.bind.

Lemma block_end : forall f a ds d a', p_block a_ops f a ds = Ok (Some d, a') -> fst (peek a') = END.
Proof.
  induction f as [|f IH]; intros a ds d a' H; [discriminate|].
  assert (MORE : forall y l, (match y with None => Ok (None, l) | Some d => bind (p_blank a_ops f l) (fun l1 => p_block a_ops f l1 (ds ++ [d])) end) = Ok (Some d, a') -> fst (peek a') = END).
  { intros [x|] l Q; [|discriminate]. destruct (p_blank a_ops f l) as [l1|]; cbn in Q; [|discriminate]. eapply IH; eauto. }
  cbn [p_block] in H. fold (p_command a_ops) (p_block a_ops) in H. cbn [o_is o_char a_ops bind] in H. destruct (Z.eqb_spec (fst (peek a)) END) as [E|E]; [injection H as _ <-; auto|].
  fold a_ops in H. 
  assert (BLK : forall l, bind (p_inline a_ops f l ImplicitBlock [] []) (fun p => let '(y, l1) := p in match (match y with Some d => Some (block_of d) | None => None end) with None => Ok (None, l1) | Some d => bind (p_blank a_ops f l1) (fun l1 => p_block a_ops f l1 (ds ++ [d])) end) = Ok (Some d, a') -> fst (peek a') = END).
  { intros l Q. destruct (p_inline a_ops f l ImplicitBlock [] []) as [[y l1]|]; cbn [bind] in Q; [|discriminate]. eapply MORE; eauto. }
  destruct (a_isb a (txt "@@")).
  - destruct (a_advance a) as [l|] eqn:A; cbn [o_adv a_ops bind] in H; rewrite A in H; cbn [bind] in H; [|discriminate]. eapply BLK; exact H.
  - cbn [bind] in H. destruct (a_isb a (txt "@")); [|eapply BLK; exact H].
    destruct (a_advance a) as [l|] eqn:A; cbn [o_adv a_ops bind] in H; rewrite A in H; cbn [bind] in H; [|discriminate].
    destruct (p_name a_ops f l []) as [[x l1]|]; cbn [bind] in H; [|discriminate]. destruct (p_command a_ops f l1 x []) as [[y l2]|]; cbn [bind] in H; [|discriminate]. eapply MORE; exact H.
Qed.

(** What the lexer needs of the text after an indented argument. *)
Lemma tail_look : forall u, no_space u -> (match u with c :: _ => c <> NL | [] => True end) -> forall j, 1 <= j -> fst (look j u) = END.
Proof.
  intros [|c u] S N [|j] J; try lia; [reflexivity|]. cbn [look no_space] in *. destruct (Z.eqb_spec c SP) as [->|]; [destruct S; reflexivity|]. destruct (Z.eqb_spec c NL); [congruence|reflexivity].
Qed.

(** ** The line of a command *)
Definition ok_after (t : text) : Prop := prefix (txt "@" ++ [NL]) t = false /\ prefix (txt "@@" ++ [NL]) t = false.
Definition at_eol (v : text) : Prop := exists r, v = NL :: r \/ v = (txt " @" ++ [NL]) ++ r \/ v = (txt " @@" ++ [NL]) ++ r.
Lemma ok_first : forall y t, y <> 64%Z -> ok_after (y :: t).
Proof. intros y t N. unfold ok_after. cbn [txt list_ascii_of_string map prefix app]. change (Z.of_nat (nat_of_ascii "@")) with 64%Z. apply not_eq_sym, Z.eqb_neq in N. rewrite N. auto. Qed.
Lemma eol_first : forall v, at_eol v -> exists y t, v = y :: t /\ (y = 10 \/ y = 32)%Z.
Proof. intros v [r [->|[->| ->]]]; do 2 eexists; (split; [reflexivity|]); auto. Qed.
Lemma line_char_first : forall x s, w_line_char x s -> exists y r, s = y :: r /\ y <> 64%Z.
Proof. intros x s [c s' W N|]; [destruct W|]; do 2 eexists; (split; [reflexivity|]); auto; discriminate. Qed.
Lemma line_text_after : forall t s rest, w_line_text t s -> ok_after rest -> ok_after (s ++ rest).
Proof. intros t s rest [|c s' t' u Wc W] K; [exact K|]. destruct (line_char_first _ _ Wc) as [y [r [-> N]]]. apply ok_first. auto. Qed.
Lemma same_after : forall ds s v, w_same ds s -> at_eol v -> ok_after (s ++ v).
Proof.
  intros ds s v W. revert v. induction W as [|t s ds u N Wt Ns W IH|x args s ds u Nx F Wa Mf W IH]; intros v E.
  - destruct (eol_first v E) as [y [t [-> Y]]]. apply ok_first. lia.
  - rewrite <- app_assoc. eapply line_text_after; eauto.
  - destruct x as [|y x]; [congruence|]. inversion F as [|? ? Fy _]; subst. unfold ok_after. cbn [txt list_ascii_of_string map prefix app]. change (Z.of_nat (nat_of_ascii "@")) with 64%Z. unfold name_char, NL in *.
    replace (10 =? y)%Z with false by (symmetry; apply Z.eqb_neq; lia). replace (64 =? y)%Z with false by (symmetry; apply Z.eqb_neq; lia). rewrite !andb_false_r. auto.
Qed.
Lemma sl_isb : forall c y t, 1 <= c -> y <> 10%Z -> (y = 32%Z -> ok_after t) ->
  a_isb (mk_a c 0 (y :: t)) [NL] = false /\ a_isb (mk_a c 0 (y :: t)) (txt " @" ++ [NL]) = false /\ a_isb (mk_a c 0 (y :: t)) (txt " @@" ++ [NL]) = false.
Proof.
  intros c y t C N K. rewrite !isb0 by (auto; noend). split; [|].
  - cbn [prefix]. replace (NL =? y)%Z with false; auto. symmetry. apply Z.eqb_neq. unfold NL. auto.
  - cbn [txt list_ascii_of_string map app]. cbn [prefix]. change (Z.of_nat (nat_of_ascii " ")) with 32%Z. destruct (Z.eqb_spec 32 y) as [<-|]; [|split; reflexivity]. destruct (K eq_refl) as [K1 K2]. split; [exact K1|exact K2].
Qed.
Lemma r_line_char : forall x s, w_line_char x s -> forall rest chars acc v u, ok_after rest -> (forall c, 1 <= c -> ev (fun f => p_inline a_ops f (mk_a c 0 rest) SameLine (chars ++ [x]) acc) v u) ->
  forall c, 1 <= c -> ev (fun f => p_inline a_ops f (mk_a c 0 (s ++ rest)) SameLine chars acc) v u.
Proof.
  intros x s W rest chars acc v u OK K c C.
  assert (RAW : x <> 64%Z -> x <> 92%Z -> x <> 10%Z -> plain_char x -> ev (fun f => p_inline a_ops f (mk_a c 0 (x :: rest)) SameLine chars acc) v u).
  { intros N1 N2 N3 P. destruct (adv0 c x rest C P) as [c1 [C1 A]]. destruct (K c1 C1) as [c2 [C2 [f0 H]]]. exists c2. split; auto. exists (S f0). intros [|f] Hf; [lia|].
    destruct (sl_isb c x rest C N3 (fun _ => OK)) as [E1 [E2 E3]]. cbn [p_inline]. ops. rewrite E1. ops. rewrite E2. ops. rewrite E3. ops. rewrite !chars_isb by (auto; discriminate). rewrite peek0 by auto. change (Z.of_nat (nat_of_ascii "@")) with 64%Z. change (Z.of_nat (nat_of_ascii "\")) with 92%Z.
    apply not_eq_sym, Z.eqb_neq in N1, N2. rewrite N1, N2, A. cbn [bind]. apply H. lia. }
  assert (ESC : forall y, escaped y = Some x -> ev (fun f => p_inline a_ops f (mk_a c 0 (92%Z :: y :: rest)) SameLine chars acc) v u).
  { intros y E. assert (NY : y <> END) by (intros ->; discriminate). destruct (adv0 c 92%Z (y :: rest) C ltac:(discriminate)) as [c1 [C1 A]]. destruct (adv0 c1 y rest C1 NY) as [c2 [C2 A2]]. destruct (K c2 C2) as [c3 [C3 [f0 H]]].
    exists c3. split; auto. exists (S f0). intros [|f] Hf; [lia|]. destruct (sl_isb c 92%Z (y :: rest) C ltac:(discriminate) ltac:(discriminate)) as [E1 [E2 E3]]. cbn [p_inline]. ops. rewrite E1. ops. rewrite E2. ops. rewrite E3. ops. rewrite !chars_isb by (auto; discriminate).
    change (Z.of_nat (nat_of_ascii "@") =? 92)%Z with false. change (Z.of_nat (nat_of_ascii "\") =? 92)%Z with true. cbv iota. rewrite A. cbn [bind]. rewrite peek0 by auto. rewrite E, A2. cbn [bind]. apply H. lia. }
  destruct W as [x s W NS|]; [|apply RAW; discriminate]. destruct W as [x P N1 N2 N3|x P|]; cbn [app].
  - apply RAW; auto. congruence.
  - apply ESC. destruct P as [->|[->|[->| ->]]]; reflexivity.
  - apply ESC. reflexivity.
Qed.
Lemma r_line_text : forall t s, w_line_text t s -> forall rest chars acc v u, ok_after rest -> (forall c, 1 <= c -> ev (fun f => p_inline a_ops f (mk_a c 0 rest) SameLine (chars ++ t) acc) v u) ->
  forall c, 1 <= c -> ev (fun f => p_inline a_ops f (mk_a c 0 (s ++ rest)) SameLine chars acc) v u.
Proof.
  intros t s W. induction W as [|x s t u' Wc W IH]; intros rest chars acc v u OK K c C.
  - cbn [app]. specialize (K c C). rewrite app_nil_r in K. exact K.
  - rewrite <- app_assoc. eapply r_line_char; eauto; [eapply line_text_after; eauto|]. intros c1 C1. apply IH; auto. intros c2 C2. rewrite <- app_assoc. apply K. auto.
Qed.
Lemma r_same : forall ds s, w_same ds s -> forall v c chars acc, at_eol v -> 1 <= c -> chars = [] \/ no_text_first ds ->
  ev (fun f => p_inline a_ops f (mk_a c 0 (s ++ v)) SameLine chars acc) (Some (inline_of (acc ++ plains chars ++ ds))) v.
Proof.
  intros ds s W. induction W as [|t s ds u N Wt Ns W IH|x args s ds u Nx F Wa Mf W IH]; intros v c chars acc E C D.
  - exists c. split; auto. exists 1. intros [|f] Hf; [lia|]. cbn [p_inline app]. ops. rewrite !isb0 by (auto; noend). rewrite app_nil_r. destruct E as [r [->|[->| ->]]]; reflexivity.
  - destruct D as [->|D]; [|destruct D]. rewrite <- app_assoc. eapply r_line_text; eauto; [eapply same_after; eauto|]. intros c1 C1. destruct (IH v c1 t acc E C1 (or_intror Ns)) as [c2 [C2 [f0 H]]]. exists c2. split; auto. exists f0. intros f Hf. cbn [app plains].
    rewrite H by lia. destruct t; [congruence|]. reflexivity.
  - cbn [app]. rewrite <- !app_assoc. destruct (eol_first v E) as [y [w [Ev Y]]].
    destruct (adv0 c 64%Z (x ++ s ++ u ++ v) C ltac:(discriminate)) as [c1 [C1 A1]].
    assert (NA : no_arg (u ++ v)). { destruct u as [|z u]; [rewrite Ev; cbn; lia|]. destruct Mf as [F1 [F2 _]]. cbn. auto. }
    destruct (r_name x (s ++ u ++ v) [] c1 F) as [c2 [C2 [f0 H0]]]; auto.
    { destruct (args_start _ _ Wa) as [[-> ->]|[_ [z [r [-> Z]]]]]; [|cbn; unfold name_char; lia]. destruct u as [|z u]; [rewrite Ev; cbn; unfold name_char; lia|]. destruct Mf as [_ [_ Mf]]. cbn. auto. }
    destruct (proj1 r_mutual _ _ Wa c2 (u ++ v) [] C2 NA) as [c3 [C3 [f1 H1]]]. destruct (IH v c3 [] (acc ++ plains chars ++ [Command x args]) E C3 (or_introl eq_refl)) as [c4 [C4 [f2 H2]]].
    exists c4. split; auto. exists (S (f0 + f1 + f2)). intros [|f] Hf; [lia|]. destruct (sl_isb c 64%Z (x ++ s ++ u ++ v) C ltac:(discriminate) ltac:(discriminate)) as [E1 [E2 E3]].
    cbn [p_inline]. ops. rewrite E1. ops. rewrite E2. ops. rewrite E3. ops. rewrite !chars_isb by (auto; discriminate).
    change (Z.of_nat (nat_of_ascii "@") =? 64)%Z with true. cbv iota. rewrite A1. cbn [bind]. rewrite H0 by lia. cbn [bind app]. rewrite H1 by lia. cbn [bind app]. rewrite H2 by lia. cbn [plains app]. rewrite <- !app_assoc. reflexivity.
Qed.

(** ** The parts of a command *)
Definition p_last (f : nat) (l : alex) (x : text) (acc : list doc) : out (option doc * alex) :=
  do l0 <- p_blank a_ops f l;
  do (y, l1) <- p_block a_ops f l0 [];
  match y with None => Ok (None, l1) | Some d => Ok (Some (Command x (acc ++ [d])), l1) end.
Definition p_tail (f : nat) (l9 : alex) (x : text) (acc : list doc) : out (option doc * alex) :=
  do (b10, l10) <- o_is a_ops l9 (txt "@@" ++ [NL]);
  if b10 then
    do l11 <- o_adv a_ops l10; do l12 <- o_adv a_ops l11; do l13 <- o_adv a_ops l12;
    p_last f l13 x acc
  else
    do (c1, l11) <- o_is a_ops l10 (txt "@" ++ [NL]);
    do (c2, l12) <- (if c1 then Ok (true, l11) else o_is a_ops l11 (txt "@ "));
    do (c3, l13) <- (if c2 then Ok (true, l12) else o_is a_ops l12 (txt "@["));
    do (c4, l14) <- (if c3 then Ok (true, l13) else o_is a_ops l13 (txt "@{"));
    if c4 then do l15 <- o_adv a_ops l14; p_command a_ops f l15 x acc
    else Ok (Some (Command x acc), l14).
Definition p_mid (f : nat) (l4 : alex) (x : text) (acc : list doc) : out (option doc * alex) :=
  do (b5, l5) <- o_is a_ops l4 (txt " @@" ++ [NL]);
  if b5 then
    do l6 <- o_adv a_ops l5; do l7 <- o_adv a_ops l6; do l8 <- o_adv a_ops l7; do l9 <- o_adv a_ops l8;
    p_last f l9 x acc
  else
    do (b6, l6) <- o_is a_ops l5 (txt " @" ++ [NL]);
    do (y, l7) <-
      (if b6 then
         do l7 <- o_adv a_ops l6; do l8 <- o_adv a_ops l7; do l9 <- o_adv a_ops l8;
         do (t, l10) <- p_lines a_ops f (a_set l9 (S (a_ind l9))) [];
         Ok (Some [Plain (strip t)], a_set l10 (pred (a_ind l10)))
       else
         do (b7, l7) <- o_is a_ops l6 [NL];
         if b7 then do l8 <- o_adv a_ops l7; Ok (Some [], l8)
         else Ok (None, l7));
    match y with
    | None => Ok (None, l7)
    | Some lit =>
      do (b8, l8) <- o_is a_ops l7 (txt " ");
      do (y, l9) <-
        (if b8 then
           do l9 <- p_blank a_ops f (a_set l8 (S (a_ind l8)));
           do (d, l10) <- p_block a_ops f l9 [];
           match d with
           | None => Ok (None, l10)
           | Some d => Ok (Some [d], a_set l10 (pred (a_ind l10)))
           end
         else Ok (Some [], l8));
      match y with
      | None => Ok (None, l9)
      | Some arg => p_tail f l9 x ((acc ++ lit) ++ arg)
      end
    end.
Lemma command_mid : forall f l x acc, p_command a_ops (S f) l x acc =
  do (y, l0) <- p_args a_ops f l [];
  match y with
  | None => Ok (None, l0)
  | Some args =>
    do (b1, l1) <- o_is a_ops l0 (txt " ");
    do (b2, l2) <- (if b1 then o_is a_ops l1 (txt " @" ++ [NL]) else Ok (true, l1));
    do (b3, l3) <- (if b2 then Ok (true, l2) else o_is a_ops l2 (txt " @@" ++ [NL]));
    do (y, l4) <- (if b3 then Ok (Some [], l3)
                   else do l4 <- o_adv a_ops l3;
                        do (d, l5) <- p_inline a_ops f l4 SameLine [] [];
                        Ok (match d with Some d => Some [d] | None => None end, l5));
    match y with
    | None => Ok (None, l4)
    | Some same => p_mid f l4 x ((acc ++ args) ++ same)
    end
  end.
Proof. reflexivity. Qed.

(** Up to the end of the line. *)
Lemma r_to_eol : forall a s d sl z c, w_args a s -> w_same_line d sl -> at_eol z -> 1 <= c -> exists c', 1 <= c' /\ exists f0, forall f, f >= f0 -> forall x acc,
  p_command a_ops (S f) (mk_a c 0 (s ++ sl ++ z)) x acc = p_mid f (mk_a c' 0 z) x ((acc ++ a) ++ d).
Proof.
  intros a s d sl z c Wa Ws E C. assert (NA : no_arg (sl ++ z)). { destruct Ws as [|p s' W]; [destruct (eol_first z E) as [y [t [-> Y]]]; cbn; lia|cbn; split; discriminate]. }
  destruct (proj1 r_mutual _ _ Wa c (sl ++ z) [] C NA) as [c1 [C1 [f0 H0]]]. destruct Ws as [|p s' W].
  - exists c1. split; auto. exists f0. intros f Hf x acc. rewrite command_mid, H0 by lia. cbn [bind app]. ops. destruct E as [r [->|[->| ->]]].
    + rewrite (isb0 c1 (NL :: r) (txt " ") C1) by noend. change (prefix (txt " ") (NL :: r)) with false. ops. rewrite app_nil_r. reflexivity.
    + rewrite (isb0 c1 _ (txt " ") C1) by noend. change (prefix (txt " ") ((txt " @" ++ [NL]) ++ r)) with true. ops. rewrite (isb0 c1 _ (txt " @" ++ [NL]) C1) by noend. change (prefix (txt " @" ++ [NL]) ((txt " @" ++ [NL]) ++ r)) with true. ops. rewrite app_nil_r. reflexivity.
    + rewrite (isb0 c1 _ (txt " ") C1) by noend. change (prefix (txt " ") ((txt " @@" ++ [NL]) ++ r)) with true. ops. rewrite (isb0 c1 _ (txt " @" ++ [NL]) C1) by noend. change (prefix (txt " @" ++ [NL]) ((txt " @@" ++ [NL]) ++ r)) with false. ops. rewrite (isb0 c1 _ (txt " @@" ++ [NL]) C1) by noend. change (prefix (txt " @@" ++ [NL]) ((txt " @@" ++ [NL]) ++ r)) with true. ops. rewrite app_nil_r. reflexivity.
  - pose proof (same_after _ _ _ W E) as OK. destruct (adv0 c1 32%Z (s' ++ z) C1 ltac:(discriminate)) as [c2 [C2 A]]. destruct (r_same _ _ W z c2 [] [] E C2 (or_introl eq_refl)) as [c3 [C3 [f1 H1]]].
    exists c3. split; auto. exists (f0 + f1). intros f Hf x acc. rewrite command_mid, H0 by lia. cbn [bind app]. ops. rewrite chars_isb by (auto; discriminate). change (Z.of_nat (nat_of_ascii " ") =? 32)%Z with true. cbv iota. ops.
    destruct (sl_isb c1 32%Z (s' ++ z) C1 ltac:(discriminate) (fun _ => OK)) as [_ [E2 E3]]. rewrite E2. ops. rewrite E3. ops. rewrite A. ops. rewrite H1 by lia. cbn [bind app plains]. reflexivity.
Qed.

(** ** Arguments in the lines after *)
Lemma tail_no_space : forall c v, 1 <= c -> no_space v -> a_isb (mk_a c 0 v) (txt " ") = false.
Proof. intros c [|y v] C N; [apply isb0; auto; noend|]. rewrite chars_isb by (auto; discriminate). cbn in N. apply Z.eqb_neq. auto. Qed.
Definition no_nl (v : text) : Prop := match v with c :: _ => c <> NL | [] => True end.
Lemma adv_nl : forall c t, 1 <= c -> a_advance (mk_a c 0 (NL :: t)) = Ok (mk_a 1 0 t).
Proof. intros c t C. unfold a_advance, a_next, peek. cbn [a_ind a_col a_rest]. replace (0 + 1 - c) with 0 by lia. reflexivity. Qed.

(** A block argument is what it would be by itself. *)
Lemma r_argument : forall t u c d, 1 <= c -> nl_ok (mk_a 1 0 t) -> starts_line t -> no_space u -> no_nl u ->
  (exists f0, forall f, f >= f0 -> exists a1 a2, p_blank a_ops f (mk_a 1 0 t) = Ok a1 /\ p_block a_ops f a1 [] = Ok (d, a2)) ->
  exists f0, forall f, f >= f0 -> exists b2, forall x acc, p_mid f (mk_a c 0 (NL :: indented t ++ u)) x acc =
    match d with Some d => p_tail f (mk_a 1 0 u) x (acc ++ [d]) | None => Ok (None, b2) end.
Proof.
  intros t u c d C K F NS NN [f1 P]. pose proof (adv_nl c (indented t ++ u) C) as A.
  assert (SH : shifted 1 u 0 (mk_a 1 0 t) (mk_a 1 1 (indented t ++ u))) by (constructor; cbn; auto).
  pose proof (tail_look u NS NN) as TL.
  assert (FI : exists r, indented t = 32%Z :: r). { destruct t as [|y t]; [destruct F|]. unfold indented. cbn in F. cbn [shift]. replace (y =? 10)%Z with false by (symmetry; apply Z.eqb_neq; exact F). cbn. eauto. }
  destruct FI as [r FI]. exists f1. intros f Hf. destruct (P f Hf) as [a1 [a2 [P1 P2]]]. pose proof (sh_blank 1 u TL f 0 _ _ SH) as B1. rewrite P1 in B1. destruct (p_blank a_ops f (mk_a 1 1 (indented t ++ u))) as [b1|] eqn:P0; [|destruct B1]. cbn in B1.
  pose proof (sh_sim 1 u TL f 0 _ _ [] B1) as B2. rewrite P2 in B2. destruct (p_block a_ops f b1 []) as [[d' b2]|] eqn:P3; [|destruct B2]. cbn in B2. destruct B2 as [<- B2]. exists b2. intros x acc.
  unfold p_mid. ops. rewrite !isb0 with (t := NL :: _) by (auto; noend). change (prefix (txt " @@" ++ [NL]) (NL :: indented t ++ u)) with false. change (prefix (txt " @" ++ [NL]) (NL :: indented t ++ u)) with false. change (prefix [NL] (NL :: indented t ++ u)) with true. cbv iota. ops. rewrite A. ops.
  assert (E : a_isb (mk_a 1 0 (indented t ++ u)) (txt " ") = true) by (rewrite FI; reflexivity). rewrite E. unfold a_set at 1. cbn [a_col a_ind a_rest]. rewrite P0. cbn [bind]. rewrite P3. cbn [bind]. destruct d as [d|]; [|reflexivity].
  specialize (B2 ltac:(discriminate)). apply block_end in P2. assert (Q : a_rest b2 = u /\ a_ind b2 = 1 /\ a_col b2 = 1).
  { destruct B2 as [I J K2 Q]. destruct K2 as [_ K2]. unfold peek in P2. destruct Q as [[Q1 [Q2 Q3]]|[Q1 [Q2 [Q3 Q4]]]].
    - rewrite Q1, I in P2. change (0 + 1 - 1) with 0 in P2. destruct (a_rest a2) as [|y w]; [|cbn in P2; subst y; destruct K2; left; auto]. split; [exact Q3|]. split; auto.
    - rewrite I in P2. replace (0 + 1 - a_col a2) with 0 in P2 by lia. destruct (a_rest a2) as [|y w]; [congruence|cbn in P2; subst y; destruct K2; left; auto]. }
  destruct Q as [E1 [E2 E3]]. cbn [bind]. unfold a_set. rewrite E1, E2, E3, app_nil_r. reflexivity.
Qed.

(** Literal lines. *)
Lemma r_plines : forall t c acc, 1 <= c -> ~ In END t -> ev (fun f => p_lines a_ops f (mk_a c 0 t) acc) (acc ++ t) [].
Proof.
  induction t as [|x t IH]; intros c acc C N.
  - exists c. split; auto. exists 1. intros [|f] Hf; [lia|]. cbn [p_lines]. ops. unfold peek. cbn [a_rest]. replace (look _ []) with (END, 0) by (destruct (_ - _); reflexivity). rewrite app_nil_r. reflexivity.
  - assert (NX : x <> END) by (intros ->; apply N; left; auto). destruct (adv0 c x t C NX) as [c1 [C1 A]]. destruct (IH c1 (acc ++ [x]) C1) as [c2 [C2 [f0 H]]]; [intros I; apply N; right; auto|]. exists c2. split; auto. exists (S f0). intros [|f] Hf; [lia|].
    cbn [p_lines]. ops. rewrite peek0 by auto. apply Z.eqb_neq in NX. rewrite NX, A. cbn [bind]. rewrite H by lia. rewrite <- app_assoc. reflexivity.
Qed.
Lemma strip_ends : forall v c n, c <> 10%Z -> strip (v ++ [c; 10%Z] ++ repeat 10%Z n) = v ++ [c; 10%Z].
Proof.
  intros v c n N. unfold strip. rewrite !rev_app_distr. assert (R : rev (repeat 10%Z n) = repeat 10%Z n). { induction n as [|n IH]; auto. cbn [repeat rev]. rewrite IH. symmetry. apply repeat_cons. }
  rewrite R. assert (E : strip_rev (repeat 10%Z n ++ 10%Z :: c :: rev v) = 10%Z :: c :: rev v).
  { clear R. induction n as [|n IH]; cbn [repeat app].
    - cbn [strip_rev]. change (10 =? NL)%Z with true. replace (c =? NL)%Z with false; [reflexivity|]. symmetry. apply Z.eqb_neq. exact N.
    - assert (X : exists w, repeat 10%Z n ++ 10%Z :: c :: rev v = 10%Z :: w) by (destruct n; cbn; eauto). destruct X as [w X]. rewrite X in *. cbn [strip_rev]. change ((10 =? NL)%Z && (10 =? NL)%Z)%bool with true. cbv iota. exact IH. }
  change (rev [c; 10%Z]) with [10%Z; c]. rewrite <- app_assoc. cbn [app]. rewrite E. cbn [rev]. rewrite rev_involutive, <- app_assoc. reflexivity.
Qed.
Lemma r_literal_lines : forall t u c, 1 <= c -> nl_ok (mk_a 1 0 t) -> no_space u -> no_nl u ->
  exists f0, forall f, f >= f0 -> forall x acc, p_mid f (mk_a c 0 ((txt " @" ++ [NL]) ++ indented t ++ u)) x acc = p_tail f (mk_a 1 0 u) x (acc ++ [Plain (strip t)]).
Proof.
  intros t u c C K NS NN. pose proof (tail_look u NS NN) as TL.
  assert (SH : shifted 1 u 0 (mk_a 1 0 t) (mk_a 1 1 (indented t ++ u))) by (constructor; cbn; auto).
  destruct (r_plines t 1 [] (le_n _) (proj2 K)) as [c1 [C1 [f0 H]]]. exists f0. intros f Hf x acc.
  assert (L : exists b, p_lines a_ops f (mk_a 1 1 (indented t ++ u)) [] = Ok (t, b) /\ a_rest b = u /\ a_ind b = 1 /\ a_col b = 1).
  { pose proof (sh_lines 1 u TL f 0 _ _ [] SH) as Q. rewrite (H f Hf) in Q. destruct (p_lines a_ops f (mk_a 1 1 (indented t ++ u)) []) as [[t' b]|]; [|destruct Q]. cbn in Q. destruct Q as [<- [I J K2 Q]]. cbn [a_rest a_col a_ind] in *.
    exists b. split; auto. destruct Q as [[Q1 [Q2 Q3]]|[_ [_ [_ Q4]]]]; [|congruence]. auto. }
  destruct L as [b [L [E1 [E2 E3]]]].
  destruct (adv0 c 32%Z ([64%Z; 10%Z] ++ indented t ++ u) C ltac:(discriminate)) as [c2 [C2 A2]]. destruct (adv0 c2 64%Z ([10%Z] ++ indented t ++ u) C2 ltac:(discriminate)) as [c3 [C3 A3]]. pose proof (adv_nl c3 (indented t ++ u) C3) as A4.
  change ((txt " @" ++ [NL]) ++ indented t ++ u) with (32%Z :: [64%Z; 10%Z] ++ indented t ++ u). unfold p_mid. ops. rewrite !isb0 with (t := 32%Z :: _) by (auto; noend).
  change (prefix (txt " @@" ++ [NL]) (32%Z :: [64%Z; 10%Z] ++ indented t ++ u)) with false. change (prefix (txt " @" ++ [NL]) (32%Z :: [64%Z; 10%Z] ++ indented t ++ u)) with true. cbv iota. ops. rewrite A2. cbn [bind]. cbn [app] in A3. change ([64%Z; 10%Z] ++ indented t ++ u) with (64%Z :: 10%Z :: indented t ++ u). rewrite A3. cbn [bind].
  change (10%Z :: indented t ++ u) with (NL :: indented t ++ u). rewrite A4. cbn [bind]. unfold a_set at 1. cbn [a_col a_ind a_rest]. rewrite L. cbn [bind]. destruct b as [bc bi br]. cbn [a_rest a_ind a_col] in E1, E2, E3. subst br bi bc. unfold a_set. cbn [a_rest a_ind a_col pred bind]. rewrite tail_no_space by auto. cbn [bind]. rewrite app_nil_r. reflexivity.
Qed.

(** ** The characters of what is written *)
Lemma line_char_noend : forall x s, w_line_char x s -> ~ In END s.
Proof. intros x s [c s' W _|]; [eapply w_char_noend; eauto|noend]. Qed.
Lemma para_text_noend : forall b t s b', w_para_text b t s b' -> ~ In END s.
Proof.
  intros b t s b' W. induction W as [|t u b W IH|b c s t u b' Wc W IH]; [auto| |].
  - cbn. unfold END in *. intuition discriminate.
  - apply line_char_noend in Wc. rewrite in_app_iff. tauto.
Qed.
Lemma para_noend : forall b p s, w_para b p s -> ~ In END s.
Proof.
  intros b p s W. induction W as [|b t s b' ds u N Wt Ns W IH|b x args s ds u F Wa Mf W IH]; [auto| |].
  - apply para_text_noend in Wt. rewrite in_app_iff. tauto.
  - apply name_noend in F. apply (proj1 w_noend) in Wa. cbn. rewrite !in_app_iff. unfold END in *. intuition discriminate.
Qed.
Lemma pre_ends : forall a u : text, (exists v, u = v ++ [NL]) -> exists v, a ++ u = v ++ [NL].
Proof. intros a u [v ->]; exists (a ++ v); apply app_assoc. Qed.
Lemma para_text_ends : forall b t s b', w_para_text b t s b' -> b' = true -> t <> [] -> exists v, s = v ++ [NL].
Proof.
  intros b t s b' W. induction W as [|t u b W IH|b c s t u b' Wc W IH]; intros B N; [congruence| |].
  - destruct t as [|x t]; [inversion W; subst; exists []; reflexivity|]. apply (pre_ends [10%Z]), IH; auto. discriminate.
  - destruct t as [|x t]; [inversion W; congruence|]. apply pre_ends, IH; auto. discriminate.
Qed.
Lemma para_ends : forall b p s, w_para b p s -> b = false \/ p <> [] -> exists v, s = v ++ [NL].
Proof.
  intros b p s W. induction W as [|b t s b' ds u N Wt Ns W IH|b x args s ds u F Wa Mf W IH]; intros B; [destruct B; congruence| |].
  - destruct b'; [|apply pre_ends, IH; auto]. destruct ds as [|d ds]; [|apply pre_ends, IH; right; discriminate]. inversion W; subst. rewrite app_nil_r. eapply para_text_ends; eauto.
  - apply (pre_ends (64%Z :: x)), pre_ends, IH. auto.
Qed.
Lemma shift_noend : forall k t b, ~ In END t -> ~ In END (shift k b t).
Proof.
  intros k. induction t as [|c t IH]; intros b N; [auto|]. cbn [shift]. rewrite in_app_iff. cbn. intros [H|[H|H]].
  - destruct (b && negb (c =? 10)%Z)%bool; [|destruct H]. apply repeat_spec in H. discriminate.
  - apply N. left. auto.
  - revert H. apply IH. intros I. apply N. right. auto.
Qed.
Lemma shift_last : forall k v b, shift k b (v ++ [NL]) = shift k b v ++ [NL].
Proof. intros k. induction v as [|c v IH]; intros b; cbn [app shift]; [rewrite andb_false_r; reflexivity|]. rewrite IH, <- app_assoc. reflexivity. Qed.
Lemma ends_more : forall a u, (exists v, a = v ++ [NL]) -> ends u -> exists v, a ++ u = v ++ [NL].
Proof. intros a u [v ->] [->|[w ->]]; [exists v; apply app_nil_r|exists ((v ++ [NL]) ++ w); apply app_assoc]. Qed.
Lemma name_first : forall x u, x <> [] -> Forall name_char x -> no_space (64%Z :: x ++ u) /\ no_more (64%Z :: x ++ u) /\ 64%Z :: x ++ u <> [64%Z].
Proof.
  intros x u N F. destruct x as [|y x]; [congruence|]. inversion F as [|? ? Fy _]; subst. cbn. unfold name_char, NL in *. split; [discriminate|]. split; [|discriminate]. split; [intros ->; lia|]. lia.
Qed.
Definition reads (c : nat) (s : text) (ds : list doc) : Prop := forall acc, exists c' s', 1 <= c' /\
  (exists f0, forall f, f >= f0 -> p_blank a_ops f (mk_a c 0 s) = Ok (mk_a c' 0 s')) /\ ev (fun f => p_block a_ops f (mk_a c' 0 s') acc) (Some (Sequence (acc ++ ds))) [].
(** One command and the rest. *)
Lemma r_step : forall x w d u ds c, x <> [] -> Forall name_char x -> no_name w -> 1 <= c ->
  (forall c, 1 <= c -> ev (fun f => p_command a_ops f (mk_a c 0 w) x []) (Some d) u) -> (forall c, 1 <= c -> reads c u ds) -> reads c (64%Z :: x ++ w) (d :: ds).
Proof.
  intros x w d u ds c N F NN C CMD IH acc. exists c, (64%Z :: x ++ w). split; auto. split.
  - exists 1. intros [|f] Hf; [lia|]. cbn [p_blank]. ops. rewrite isb0 by (auto; noend). reflexivity.
  - destruct (adv0 c 64%Z (x ++ w) C ltac:(discriminate)) as [c1 [C1 A]]. destruct (r_name x w [] c1 F NN C1) as [c2 [C2 [f0 H0]]]. destruct (CMD c2 C2) as [c3 [C3 [f1 H1]]].
    destruct (IH c3 C3 (acc ++ [d])) as [c4 [s4 [C4 [[f2 H2] [c5 [C5 [f3 H3]]]]]]]. exists c5. split; auto. exists (S (f0 + f1 + f2 + f3)). intros [|f] Hf; [lia|].
    assert (AA : a_isb (mk_a c 0 (64%Z :: x ++ w)) (txt "@@") = false).
    { rewrite isb0 by (auto; noend). destruct x as [|y x]; [congruence|]. inversion F as [|? ? Fy _]; subst. cbn [txt list_ascii_of_string map prefix app]. replace (Z.of_nat (nat_of_ascii "@") =? y)%Z with false; [apply andb_false_r|]. symmetry. apply Z.eqb_neq. change (Z.of_nat (nat_of_ascii "@")) with 64%Z. unfold name_char in Fy. lia. }
    cbn [p_block]. fold (p_command a_ops) (p_block a_ops). ops. rewrite peek0 by auto. change (64 =? END)%Z with false. cbv iota. rewrite AA. ops. rewrite chars_isb by (auto; discriminate). change (Z.of_nat (nat_of_ascii "@") =? 64)%Z with true. cbv iota. rewrite A. cbn [bind].
    rewrite H0 by lia. cbn [bind app]. rewrite H1 by lia. cbn [bind]. rewrite H2 by lia. cbn [bind]. rewrite H3 by lia. rewrite <- app_assoc. reflexivity.
Qed.
(** ** The column *)
Definition column_of (c0 : nat) (t0 : text) (_ : nat) (l m : alex) : Prop := l = m /\ exists p, t0 = p ++ a_rest l /\ a_col l = columns c0 p.
Lemma co_adv : forall c0 t0 i l m, column_of c0 t0 i l m -> sl (column_of c0 t0) i (o_adv a_ops l) (o_adv a_ops m).
Proof.
  intros c0 t0 i l m [<- [p [E C]]]. cbn [o_adv a_ops]. unfold a_advance. destruct (_ =? END)%Z; [reflexivity|]. cbn. split; auto. unfold a_next. destruct (peek l) as [c n]. cbn [a_rest a_col]. exists (p ++ firstn (S n) (a_rest l)).
  split; [rewrite <- app_assoc, firstn_skipn; exact E|]. rewrite C. unfold columns. rewrite fold_left_app. reflexivity.
Qed.
Lemma name_col : forall f c x u acc v c', p_name a_ops f (mk_a c 0 (x ++ u)) acc = Ok (v, mk_a c' 0 u) -> c' = columns c x.
Proof.
  intros f c x u acc v c' H. assert (Q : so (column_of c (x ++ u)) 0 (p_name a_ops f (mk_a c 0 (x ++ u)) acc) (p_name a_ops f (mk_a c 0 (x ++ u)) acc)).
  { apply g_name; [|exact (co_adv c (x ++ u))|]; [|split; auto; exists []; split; reflexivity]. intros i l m [<- R]. cbn. unfold column_of. auto. }
  rewrite H in Q. destruct Q as [_ [_ [p [E C]]]]. cbn [a_rest a_col] in *. apply app_inv_tail in E. congruence.
Qed.
Lemma args_col : forall f c x u acc v c', p_args a_ops f (mk_a c 0 (x ++ u)) acc = Ok (v, mk_a c' 0 u) -> c' = columns c x.
Proof.
  intros f c x u acc v c' H. assert (Q : so (column_of c (x ++ u)) 0 (p_args a_ops f (mk_a c 0 (x ++ u)) acc) (p_args a_ops f (mk_a c 0 (x ++ u)) acc)).
  { apply g_inline; try exact (co_adv c (x ++ u)); try (split; auto; exists []; split; reflexivity); intros i l m; intros; repeat match goal with R : column_of _ _ _ _ _ |- _ => destruct R as [<- R] end; cbn; unfold column_of; auto. }
  rewrite H in Q. destruct Q as [_ [_ [p [E C]]]]. cbn [a_rest a_col] in *. apply app_inv_tail in E. congruence.
Qed.
Lemma columns_name : forall x c, Forall name_char x -> c <= columns c x.
Proof.
  induction x as [|y x IH]; intros c F; [apply le_n|]. inversion F as [|? ? Fy Fx]; subst. change (c <= columns (if (y =? NL)%Z then 1 else S c) x). replace (y =? NL)%Z with false by (symmetry; apply Z.eqb_neq; unfold name_char, NL in *; lia). specialize (IH (S c) Fx). lia.
Qed.
Lemma columns_last : forall s y c, y <> NL -> 1 <= c -> 2 <= columns c (s ++ [y]).
Proof.
  intros s y c N C. unfold columns. rewrite fold_left_app. apply Z.eqb_neq in N. cbn [fold_left]. rewrite N. pose proof (columns_pos s c C) as P. unfold columns in P. lia.
Qed.
Lemma args_last : forall ds s, w_args ds s -> s = [] \/ exists w y, s = w ++ [y] /\ y <> NL.
Proof.
  intros ds s W. induction W as [|t ds u K W IH|p s ds u Wi W IH]; [left; auto|right|right].
  - destruct IH as [->|[w [y [-> N]]]]; [exists (123%Z :: t), 125%Z; split; [reflexivity|discriminate]|]. exists (123%Z :: t ++ 125%Z :: w), y. split; auto. cbn. rewrite <- app_assoc. reflexivity.
  - destruct IH as [->|[w [y [-> N]]]]; [exists (91%Z :: s), 93%Z; split; [reflexivity|discriminate]|]. exists (91%Z :: s ++ 93%Z :: w), y. split; auto. cbn. rewrite <- app_assoc. reflexivity.
Qed.
Lemma columns_command : forall x args s c, Forall name_char x -> w_args args s -> 1 <= c -> 2 <= columns (columns (columns c [64%Z]) x) s.
Proof.
  intros x args s c F W C. change (columns c [64%Z]) with (S c). pose proof (columns_name x (S c) F). destruct (args_last _ _ W) as [->|[w [y [-> N]]]]; [cbn; lia|]. apply columns_last; auto. lia.
Qed.
Lemma adv0_col : forall c x t, 1 <= c -> x <> END -> a_advance (mk_a c 0 (x :: t)) = Ok (mk_a (columns c [x]) 0 t).
Proof. intros c x t C N. unfold a_advance, a_next. pose proof (peek0 c x t C) as P. unfold peek in *. cbn [a_ind a_col a_rest] in *. replace (0 + 1 - c) with 0 in * by lia. cbn [look fst] in *. apply Z.eqb_neq in N. rewrite N. reflexivity. Qed.
Lemma columns_one : forall c x, 1 <= c -> x <> NL -> 2 <= columns c [x].
Proof. intros c x C N. apply (columns_last [] x c N C). Qed.

(** ** Paragraphs *)
Lemma para_guard : forall c y t, 1 <= c -> y <> NL -> (if c =? 1 then Ok (a_isb (mk_a c 0 (y :: t)) [NL], mk_a c 0 (y :: t)) else Ok (false, mk_a c 0 (y :: t))) = Ok (false, mk_a c 0 (y :: t)).
Proof.
  intros c y t C N. destruct (_ =? 1); auto. rewrite isb0 by (auto; noend). cbn [prefix]. rewrite andb_true_r. replace (NL =? y)%Z with false; auto. symmetry. apply Z.eqb_neq. congruence.
Qed.
Lemma r_para_char : forall x s, w_line_char x s -> forall rest chars acc v u, (forall c, 2 <= c -> ev (fun f => p_inline a_ops f (mk_a c 0 rest) ImplicitBlock (chars ++ [x]) acc) v u) ->
  forall c, 1 <= c -> ev (fun f => p_inline a_ops f (mk_a c 0 (s ++ rest)) ImplicitBlock chars acc) v u.
Proof.
  intros x s W rest chars acc v u K c C.
  assert (RAW : x <> 64%Z -> x <> 92%Z -> x <> 10%Z -> plain_char x -> ev (fun f => p_inline a_ops f (mk_a c 0 (x :: rest)) ImplicitBlock chars acc) v u).
  { intros N1 N2 N3 P. pose proof (adv0_col c x rest C P) as A. destruct (K _ (columns_one c x C N3)) as [c2 [C2 [f0 H]]]. exists c2. split; auto. exists (S f0). intros [|f] Hf; [lia|].
    cbn [p_inline]. ops. cbn [a_col]. rewrite para_guard by auto. ops. rewrite peek0 by auto. apply Z.eqb_neq in P. change (x =? END)%Z with (x =? 3)%Z. rewrite P. rewrite !chars_isb by (auto; discriminate). change (Z.of_nat (nat_of_ascii "@")) with 64%Z. change (Z.of_nat (nat_of_ascii "\")) with 92%Z.
    apply not_eq_sym, Z.eqb_neq in N1, N2. rewrite N1, N2, A. cbn [bind]. apply H. lia. }
  assert (ESC : forall y, escaped y = Some x -> y <> NL -> ev (fun f => p_inline a_ops f (mk_a c 0 (92%Z :: y :: rest)) ImplicitBlock chars acc) v u).
  { intros y E NY'. assert (NY : y <> END) by (intros ->; discriminate). pose proof (adv0_col c 92%Z (y :: rest) C ltac:(discriminate)) as A. assert (C1 : 1 <= columns c [92%Z]) by (cbn; lia). pose proof (adv0_col _ y rest C1 NY) as A2. destruct (K _ (columns_one _ y C1 NY')) as [c3 [C3 [f0 H]]].
    exists c3. split; auto. exists (S f0). intros [|f] Hf; [lia|]. cbn [p_inline]. ops. cbn [a_col]. rewrite para_guard by (auto; discriminate). ops. rewrite peek0 by auto. change (92 =? END)%Z with false. cbv iota. rewrite !chars_isb by (auto; discriminate).
    change (Z.of_nat (nat_of_ascii "@") =? 92)%Z with false. change (Z.of_nat (nat_of_ascii "\") =? 92)%Z with true. cbv iota. rewrite A. cbn [bind]. rewrite peek0 by auto. rewrite E, A2. cbn [bind]. apply H. lia. }
  destruct W as [x s W NS|]; [|apply RAW; discriminate]. destruct W as [x P N1 N2 N3|x P|]; cbn [app].
  - apply RAW; auto. congruence.
  - apply ESC; destruct P as [->|[->|[->| ->]]]; first [reflexivity|discriminate].
  - apply ESC; [reflexivity|discriminate].
Qed.
Lemma r_para_text : forall b t s b', w_para_text b t s b' -> forall rest chars acc v w c, 1 <= c -> (b = false -> 2 <= c) ->
  (forall c', 1 <= c' -> (b' = false -> 2 <= c') -> (b' = true -> c' = 1 \/ t = [] /\ c' = c) -> ev (fun f => p_inline a_ops f (mk_a c' 0 rest) ImplicitBlock (chars ++ t) acc) v w) ->
  ev (fun f => p_inline a_ops f (mk_a c 0 (s ++ rest)) ImplicitBlock chars acc) v w.
Proof.
  intros b t s b' W. induction W as [b|t u b W IH|b x s t u b' Wc W IH]; intros rest chars acc v w c C B K.
  - cbn [app]. specialize (K c C B (fun _ => or_intror (conj eq_refl eq_refl))). rewrite app_nil_r in K. exact K.
  - specialize (B eq_refl). destruct (IH rest (chars ++ [NL]) acc v w 1 (le_n _) ltac:(discriminate)) as [c1 [C1 [f0 H]]].
    { intros c' C' B' D. rewrite <- app_assoc. apply K; auto. intros E. left. destruct (D E) as [|[_ ->]]; auto. }
    exists c1. split; auto. exists (S f0). intros [|f] Hf; [lia|]. cbn [p_inline app]. ops. cbn [a_col]. destruct (Nat.eqb_spec c 1); [lia|]. ops. change 10%Z with NL. rewrite peek0 by auto. change (NL =? END)%Z with false. cbv iota. rewrite !chars_isb by (auto; discriminate).
    change (Z.of_nat (nat_of_ascii "@") =? NL)%Z with false. change (Z.of_nat (nat_of_ascii "\") =? NL)%Z with false. cbv iota. rewrite adv_nl by auto. cbn [bind]. apply H. lia.
  - rewrite <- app_assoc. eapply r_para_char; eauto. intros c1 C1. apply IH; [lia|auto|]. intros c' C' B' D. rewrite <- app_assoc. apply K; auto. intros E. left. destruct (D E) as [|[Et _]]; auto. subst t. inversion W; congruence.
Qed.
Lemma r_para : forall b p s, w_para b p s -> forall c u chars acc, 1 <= c -> (b = true -> s <> [] \/ c = 1) -> (b = false -> 2 <= c) -> chars = [] \/ no_text_first p -> ~ starts_line u -> ~ In END u ->
  ev (fun f => p_inline a_ops f (mk_a c 0 (s ++ u)) ImplicitBlock chars acc) (Some (inline_of (acc ++ plains chars ++ p))) u.
Proof.
  intros b p s W. induction W as [|b t s b' ds u' N Wt Ns W IH|b x args s ds u' F Wa Mf W IH]; intros c u chars acc C BT BF D SU NU.
  - destruct (BT eq_refl) as [BT'|BT']; [congruence|subst c]. exists 1. split; auto. exists 1. intros [|f] Hf; [lia|]. cbn [p_inline app]. ops. cbn [a_col Nat.eqb]. ops. rewrite isb0 by (auto; noend). rewrite app_nil_r.
    destruct u as [|y u]; [reflexivity|]. cbn in SU. assert (y = 10%Z) by lia. subst y. reflexivity.
  - destruct D as [->|D]; [|destruct D]. rewrite <- app_assoc. eapply r_para_text; eauto. intros c1 C1 B1 E1.
    destruct (IH c1 u t acc C1) as [c2 [C2 [f0 H]]]; auto.
    { intros E. destruct (E1 E) as [|[E2 _]]; [auto|congruence]. }
    exists c2. split; auto. exists f0. intros f Hf. cbn [app plains]. rewrite H by lia. destruct t; [congruence|]. reflexivity.
  - cbn [app]. rewrite <- !app_assoc. pose proof (adv0_col c 64%Z (x ++ s ++ u' ++ u) C ltac:(discriminate)) as A1. assert (C1 : 1 <= columns c [64%Z]) by (cbn; lia).
    assert (NE : exists z w, u' = z :: w). { assert (E : exists v, u' = v ++ [NL]) by (eapply para_ends; eauto). destruct E as [[|z v] ->]; cbn; eauto. }
    destruct NE as [z [w E]]. subst u'. assert (NA : no_arg ((z :: w) ++ u)) by (destruct Mf as [F1 [F2 _]]; cbn; auto).
    assert (NN : no_name (s ++ (z :: w) ++ u)). { destruct (args_start _ _ Wa) as [[-> ->]|[_ [y [r [-> Y]]]]]; [|cbn; unfold name_char; lia]. destruct Mf as [_ [_ Mf]]. cbn. auto. }
    destruct (r_name x (s ++ (z :: w) ++ u) [] _ F NN C1) as [c2 [C2 [f0 H0]]]. pose proof (name_col _ _ _ _ _ _ _ (H0 f0 (le_n _))) as E2.
    destruct (proj1 r_mutual _ _ Wa c2 ((z :: w) ++ u) [] C2 NA) as [c3 [C3 [f1 H1]]]. pose proof (args_col _ _ _ _ _ _ _ (H1 f1 (le_n _))) as E3.
    assert (C3' : 2 <= c3) by (rewrite E3, E2; eapply columns_command; eauto).
    destruct (IH c3 u [] (acc ++ plains chars ++ [Command x args]) C3 ltac:(discriminate) (fun _ => C3') (or_introl eq_refl) SU NU) as [c4 [C4 [f2 H2]]].
    exists c4. split; auto. exists (S (f0 + f1 + f2)). intros [|f] Hf; [lia|].
    cbn [p_inline]. ops. cbn [a_col]. rewrite para_guard by (auto; discriminate). ops. rewrite peek0 by auto. change (64 =? END)%Z with false. cbv iota. rewrite !chars_isb by (auto; discriminate).
    change (Z.of_nat (nat_of_ascii "@") =? 64)%Z with true. cbv iota. rewrite A1. cbn [bind]. rewrite H0 by lia. cbn [bind app]. rewrite H1 by lia. cbn [bind app]. cbn [app] in H2. rewrite H2 by lia. cbn [plains app]. rewrite <- !app_assoc. reflexivity.
Qed.
(** The first character of a paragraph. *)
Lemma para_first : forall p s, w_para true p s -> s <> [] -> exists y w, s = y :: w /\ y <> NL /\ y <> END.
Proof.
  intros p s W N. pose proof (para_noend _ _ _ W) as NE. assert (K : exists y w, s = y :: w /\ y <> NL).
  { remember true as b eqn:Eb. destruct W as [|b t s b' ds u Nt Wt Ns W|b x args s ds u F Wa Mf W]; [congruence| |do 2 eexists; split; [reflexivity|discriminate]].
    subst b. remember true as b eqn:Eb. destruct Wt as [b|t u' b Wt|b c s t u' b' Wc Wt]; [congruence|discriminate|]. destruct Wc as [c s Wc NS|]; [|do 2 eexists; split; [reflexivity|discriminate]].
    destruct Wc; (do 2 eexists; split; [reflexivity|]); try discriminate. intros ->. apply NS. reflexivity. }
  destruct K as [y [w [-> K]]]. exists y, w. split; auto. split; auto. intros ->. apply NE. left. auto.
Qed.
Lemma r_paragraph : forall p s u ds c, w_para true p s -> starts_paragraph s -> 1 <= c -> ~ starts_line u -> ~ In END u -> (forall c, 1 <= c -> reads c u ds) -> reads c (s ++ u) (Command (txt ".block") [doc_of p] :: ds).
Proof.
  intros p s u ds c L SP C SU NU IH acc. destruct (para_first _ _ L) as [x [t [-> [N3 P]]]]; [intros ->; exact SP|]. destruct SP as [_ N1]. exists c, ((x :: t) ++ u). split; auto. split.
  - exists 1. intros [|f] Hf; [lia|]. cbn [p_blank app]. ops. rewrite isb0 by (auto; noend). cbn [prefix]. replace (NL =? x)%Z with false; [reflexivity|]. symmetry. apply Z.eqb_neq. congruence.
  - destruct (r_para _ _ _ L c u [] [] C ltac:(left; discriminate) ltac:(discriminate) (or_introl eq_refl) SU NU) as [c1 [C1 [f0 H0]]].
    destruct (IH c1 C1 (acc ++ [Command (txt ".block") [doc_of p]])) as [c4 [s4 [C4 [[f2 H2] [c5 [C5 [f3 H3]]]]]]]. exists c5. split; auto. exists (S (f0 + f2 + f3)). intros [|f] Hf; [lia|].
    cbn [p_block]. fold (p_command a_ops) (p_block a_ops). ops. change ((x :: t) ++ u) with (x :: t ++ u) in *. rewrite peek0 by auto. apply Z.eqb_neq in P. rewrite P.
    apply not_eq_sym, Z.eqb_neq in N1. assert (AA : a_isb (mk_a c 0 (x :: t ++ u)) (txt "@@") = false). { rewrite isb0 by (auto; noend). cbn [txt list_ascii_of_string map prefix]. change (Z.of_nat (nat_of_ascii "@")) with 64%Z. rewrite N1. reflexivity. }
    rewrite AA. ops. rewrite chars_isb by (auto; discriminate). change (Z.of_nat (nat_of_ascii "@")) with 64%Z. rewrite N1. rewrite H0 by lia. cbn [bind app plains].
    rewrite H2 by lia. cbn [bind]. unfold block_of. change (inline_of p) with (doc_of p). rewrite H3 by lia. rewrite <- app_assoc. reflexivity.
Qed.
Lemma para_at : forall x args p s, w_para true (Command x args :: p) s -> exists w, s = 64%Z :: x ++ w /\ Forall name_char x.
Proof. intros x args p s W. inversion W; subst. eexists. split; [reflexivity|auto]. Qed.
Lemma r_paragraph_at : forall x args p s u ds c, x <> [] -> w_para true (Command x args :: p) s -> 1 <= c -> ~ starts_line u -> ~ In END u -> (forall c, 1 <= c -> reads c u ds) ->
  reads c (64%Z :: s ++ u) (Command (txt ".block") [doc_of (Command x args :: p)] :: ds).
Proof.
  intros x args p s u ds c N L C SU NU IH acc. destruct (para_at _ _ _ _ L) as [w [Es F]]. exists c, (64%Z :: s ++ u). split; auto. split.
  - exists 1. intros [|f] Hf; [lia|]. cbn [p_blank]. ops. rewrite isb0 by (auto; noend). reflexivity.
  - pose proof (adv0_col c 64%Z (s ++ u) C ltac:(discriminate)) as A. assert (C0 : 1 <= columns c [64%Z]) by (cbn; lia).
    destruct (r_para _ _ _ L _ u [] [] C0 ltac:(left; subst s; discriminate) ltac:(discriminate) (or_introl eq_refl) SU NU) as [c1 [C1 [f0 H0]]].
    destruct (IH c1 C1 (acc ++ [Command (txt ".block") [doc_of (Command x args :: p)]])) as [c4 [s4 [C4 [[f2 H2] [c5 [C5 [f3 H3]]]]]]]. exists c5. split; auto. exists (S (f0 + f2 + f3)). intros [|f] Hf; [lia|].
    cbn [p_block]. fold (p_command a_ops) (p_block a_ops). ops. rewrite peek0 by auto. change (64 =? END)%Z with false. cbv iota.
    assert (AA : a_isb (mk_a c 0 (64%Z :: s ++ u)) (txt "@@") = true). { rewrite isb0 by (auto; noend). subst s. reflexivity. }
    rewrite AA. ops. rewrite A. cbn [bind]. rewrite H0 by lia. cbn [bind app plains]. rewrite H2 by lia. cbn [bind]. unfold block_of. change (inline_of (Command x args :: p)) with (doc_of (Command x args :: p)). rewrite H3 by lia. rewrite <- app_assoc. reflexivity.
Qed.

Lemma w_doc_noends : (forall ds s, w_doc ds s -> ~ In END s) /\ (forall d s b, w_eol d s b -> ~ In END s) /\ (forall a s b, w_rounds a s b -> ~ In END s) /\ (forall a s, w_final a s -> ~ In END s).
Proof.
  assert (LC : forall x s, w_line_char x s -> ~ In END s). { intros x s [c s' W _|]; [eapply w_char_noend; eauto|noend]. }
  assert (LT : forall t s, w_line_text t s -> ~ In END s). { intros t s W. induction W as [|c s t u Wc W IH]; [auto|]. rewrite in_app_iff. apply LC in Wc. tauto. }
  assert (WS : forall ds s, w_same ds s -> ~ In END s).
  { intros ds s W. induction W as [|t s ds u N Wt Ns W IH|x args s ds u Nx F Wa Mf W IH]; [auto| |].
    - apply LT in Wt. rewrite in_app_iff. tauto.
    - apply name_noend in F. apply (proj1 w_noend) in Wa. cbn. rewrite !in_app_iff. unfold END in *. intuition discriminate. }
  assert (SL : forall ds s, w_same_line ds s -> ~ In END s). { intros ds s [|p s' W]; [auto|]. apply WS in W. cbn. unfold END in *. intuition discriminate. }
  apply w_docind.
  - auto.
  - intros ds s W IH. cbn. unfold END in *. intuition discriminate.
  - intros p s ds u L S W IH SU. apply para_noend in L. rewrite in_app_iff. tauto.
  - intros x args p s ds u N L W IH SU. apply para_noend in L. cbn. rewrite in_app_iff. unfold END in *. intuition discriminate.
  - intros x args s b ds u N F Wr IHr W IH B. apply name_noend in F. cbn. rewrite !in_app_iff. unfold END in *. intuition discriminate.
  - intros x args s ds u N F Wr IHr W IH. apply name_noend in F. cbn. rewrite !in_app_iff. unfold END in *. intuition discriminate.
  - intros d s W. apply SL in W. rewrite in_app_iff. cbn. unfold END in *. intuition discriminate.
  - intros d s v c n W N C. apply SL in W. assert (K : ~ In END (indented (v ++ [c; 10%Z] ++ repeat 10%Z n))).
    { apply shift_noend. intros I. rewrite !in_app_iff in I. destruct I as [I|[I|I]]; [| |apply repeat_spec in I; discriminate].
      - apply N. rewrite in_app_iff. auto.
      - apply N. rewrite in_app_iff. cbn in *. unfold END in *. intuition discriminate. }
    rewrite !in_app_iff. cbn. unfold END in *. intuition discriminate.
  - intros d s dt t W Wt IH St. apply SL in W. apply (shift_noend 1 t true) in IH. fold (indented t) in IH. rewrite in_app_iff. cbn. unfold END in *. intuition discriminate.
  - intros a s d e b Wa We IH. apply (proj1 w_noend) in Wa. rewrite in_app_iff. tauto.
  - intros a s d e b a' r b' Wa We IH Wr IHr. apply (proj1 w_noend) in Wa. rewrite !in_app_iff. cbn. unfold END in *. intuition discriminate.
  - intros a s d e Wa We. apply (proj1 w_noend) in Wa. apply SL in We. rewrite !in_app_iff. cbn. unfold END in *. intuition discriminate.
  - intros a s d e b Wa We IH. apply (proj1 w_noend) in Wa. rewrite !in_app_iff. cbn. unfold END in *. intuition discriminate.
  - intros a s d e b a' r Wa We IH Wr IHr. apply (proj1 w_noend) in Wa. rewrite !in_app_iff. cbn. unfold END in *. intuition discriminate.
Qed.
Definition w_doc_noend := proj1 w_doc_noends.
Lemma w_doc_endss : (forall ds s, w_doc ds s -> ends s) /\ (forall d s b, w_eol d s b -> exists v, s = v ++ [NL]) /\ (forall a s b, w_rounds a s b -> exists v, s = v ++ [NL]) /\ (forall a s, w_final a s -> exists v, s = v ++ [NL]).
Proof.
  assert (PRE : forall a u : text, (exists v, u = v ++ [NL]) -> exists v, a ++ u = v ++ [NL]) by (intros a u [v ->]; exists (a ++ v); apply app_assoc).
  apply w_docind.
  - left. auto.
  - intros ds s W IH. right. apply (ends_more [NL]); auto. exists []. reflexivity.
  - intros p s ds u L S W IH SU. right. apply ends_more; auto. eapply para_ends; eauto. right. intros ->. inversion L; subst. exact S.
  - intros x args p s ds u N L W IH SU. right. apply (pre_ends [64%Z]), ends_more; auto. eapply para_ends; eauto. right. discriminate.
  - intros x args s b ds u N F Wr IHr W IH B. right. apply (PRE (64%Z :: x)), ends_more; auto.
  - intros x args s ds u N F Wr IHr W IH. right. apply (PRE (64%Z :: x)), ends_more; auto.
  - intros d s W. exists s. reflexivity.
  - intros d s v c n W N C. apply PRE. assert (K : exists w, v ++ [c; 10%Z] ++ repeat 10%Z n = w ++ [NL]).
    { apply PRE. destruct n as [|n]; [exists [c]; reflexivity|]. apply PRE. cbn [repeat]. rewrite repeat_cons. eauto. }
    destruct K as [w ->]. unfold indented. rewrite shift_last. apply (PRE (txt " @" ++ [10%Z])). eauto.
  - intros d s dt t W Wt IH St. apply PRE. destruct IH as [->|[w ->]]; [destruct St|]. unfold indented. rewrite shift_last. apply (PRE [10%Z]). eauto.
  - intros a s d e b Wa We IH. apply PRE. auto.
  - intros a s d e b a' r b' Wa We IH Wr IHr. apply PRE, PRE, (PRE [64%Z]). auto.
  - intros a s d e Wa We. do 3 apply PRE. exists []. reflexivity.
  - intros a s d e b Wa We IH. do 3 apply PRE. exists []. reflexivity.
  - intros a s d e b a' r Wa We IH Wr IHr. apply PRE, PRE, (PRE [64%Z]). auto.
Qed.
Definition w_doc_ends := proj1 w_doc_endss.

(** ** Documents *)
Lemma doc_start : forall ds u, w_doc ds u -> no_space u /\ no_more u /\ u <> [64%Z].
Proof.
  intros ds u W. destruct W as [|ds s W|p s ds u L S W SU|x args p s ds u N L W SU|x args s b ds u N F Wr W B|x args s ds u N F Wr W]; [repeat split; discriminate|repeat split; discriminate| | |apply name_first; auto|apply name_first; auto].
  - destruct s as [|y s]; [destruct S|]. destruct S as [S1 S2]. split; [exact S1|]. split; [|cbn; congruence]. cbn. destruct y as [|y|y]; auto. repeat (destruct y as [y|y|]; auto). congruence.
  - destruct (para_at _ _ _ _ L) as [w [-> F]]. destruct x as [|y x]; [congruence|]. inversion F as [|? ? Fy _]; subst. cbn. unfold name_char, NL in *. split; [discriminate|]. split; [|discriminate]. repeat split; try discriminate. intros _. lia.
Qed.
(** Where a round starts. *)
Definition round_first (s : text) : Prop := match s with c :: _ => c = 123%Z \/ c = 91%Z \/ c = 32%Z \/ c = 10%Z | [] => False end.
Lemma round_start : forall a s e, w_args a s -> round_first e -> round_first (s ++ e).
Proof. intros a s e Wa R. destruct (args_start _ _ Wa) as [[_ ->]|[_ [c [r [-> C]]]]]; [exact R|]. cbn. intuition. Qed.
Lemma eol_start : forall d e b w, w_eol d e b -> round_first (e ++ w).
Proof. intros d e b w W. destruct W as [d s [|]|d s v c n [|] ? ?|d s dt t [|] ? ?]; cbn; auto. Qed.
Lemma rounds_start : forall a r b w, w_rounds a r b -> round_first (r ++ w).
Proof. intros a r b w W. destruct W; rewrite <- app_assoc; eapply round_start; eauto; [|rewrite <- app_assoc]; eapply eol_start; eauto. Qed.
Lemma final_start : forall a r w, w_final a r -> round_first (r ++ w).
Proof. intros a r w W. destruct W as [a s d e Wa [|]|a s d e b Wa We|a s d e b a' r Wa We Wr]; rewrite <- app_assoc; eapply round_start; eauto; try (cbn; auto; fail); rewrite <- app_assoc; eapply eol_start; eauto. Qed.
Lemma round_no_name : forall s, round_first s -> no_name s.
Proof. intros [|c s] H; [exact I|]. cbn in *. unfold name_char. lia. Qed.
(** One more round. *)
Lemma next_round : forall c w, 1 <= c -> round_first w -> exists c', 1 <= c' /\ forall f x acc, p_tail f (mk_a c 0 (64%Z :: w)) x acc = p_command a_ops f (mk_a c' 0 w) x acc.
Proof.
  intros c w C R. destruct (adv0 c 64%Z w C ltac:(discriminate)) as [c1 [C1 A]]. exists c1. split; auto. intros f x acc. destruct w as [|y w]; [destruct R|].
  unfold p_tail. ops. cbn in R. destruct R as [->|[->|[->| ->]]];
    (rewrite (isb0 c _ (txt "@@" ++ [NL]) C) by noend; match goal with |- context [prefix ?p ?t] => change (prefix p t) with false end; ops;
     rewrite (isb0 c _ (txt "@" ++ [NL]) C) by noend; match goal with |- context [prefix ?p ?t] => first [change (prefix p t) with true; ops|change (prefix p t) with false; ops;
     rewrite (isb0 c _ (txt "@ ") C) by noend; match goal with |- context [prefix ?p ?t] => first [change (prefix p t) with true; ops|change (prefix p t) with false; ops;
     rewrite (isb0 c _ (txt "@[") C) by noend; match goal with |- context [prefix ?p ?t] => first [change (prefix p t) with true; ops|change (prefix p t) with false; ops;
     rewrite (isb0 c _ (txt "@{") C) by noend; match goal with |- context [prefix ?p ?t] => change (prefix p t) with true; ops end] end] end] end);
    rewrite A; reflexivity.
Qed.
Lemma tail_stop : forall c u f x acc, 1 <= c -> no_more u -> u <> [64%Z] -> p_tail f (mk_a c 0 u) x acc = Ok (Some (Command x acc), mk_a c 0 u).
Proof.
  intros c u f x acc C NM N1. destruct (no_more_isb c u C NM N1) as [E1 [E2 [E3 [E4 E5]]]]. unfold p_tail. ops. rewrite E1. ops. rewrite E2. ops. rewrite E3. ops. rewrite E4. ops. rewrite E5. reflexivity.
Qed.
Lemma tail_final : forall c u, 1 <= c -> exists c', 1 <= c' /\ forall f x acc, p_tail f (mk_a c 0 (txt "@@" ++ [10%Z] ++ u)) x acc = p_last f (mk_a c' 0 u) x acc.
Proof.
  intros c u C. destruct (adv0 c 64%Z (64%Z :: 10%Z :: u) C ltac:(discriminate)) as [c1 [C1 A1]]. destruct (adv0 c1 64%Z (10%Z :: u) C1 ltac:(discriminate)) as [c2 [C2 A2]]. destruct (adv0 c2 10%Z u C2 ltac:(discriminate)) as [c3 [C3 A3]].
  exists c3. split; auto. intros f x acc. unfold p_tail. ops. rewrite (isb0 c _ (txt "@@" ++ [NL]) C) by noend. change (prefix (txt "@@" ++ [NL]) (txt "@@" ++ [10%Z] ++ u)) with true. ops. change (txt "@@" ++ [10%Z] ++ u) with (64%Z :: 64%Z :: 10%Z :: u). rewrite A1. cbn [bind]. rewrite A2. cbn [bind]. rewrite A3. reflexivity.
Qed.
Lemma mid_final : forall c u, 1 <= c -> exists c', 1 <= c' /\ forall f x acc, p_mid f (mk_a c 0 ((txt " @@" ++ [10%Z]) ++ u)) x acc = p_last f (mk_a c' 0 u) x acc.
Proof.
  intros c u C. destruct (adv0 c 32%Z (64%Z :: 64%Z :: 10%Z :: u) C ltac:(discriminate)) as [c0 [C0 A0]]. destruct (adv0 c0 64%Z (64%Z :: 10%Z :: u) C0 ltac:(discriminate)) as [c1 [C1 A1]]. destruct (adv0 c1 64%Z (10%Z :: u) C1 ltac:(discriminate)) as [c2 [C2 A2]]. destruct (adv0 c2 10%Z u C2 ltac:(discriminate)) as [c3 [C3 A3]].
  exists c3. split; auto. intros f x acc. unfold p_mid. ops. rewrite (isb0 c _ (txt " @@" ++ [NL]) C) by noend. change (prefix (txt " @@" ++ [NL]) ((txt " @@" ++ [10%Z]) ++ u)) with true. ops. change ((txt " @@" ++ [10%Z]) ++ u) with (32%Z :: 64%Z :: 64%Z :: 10%Z :: u). rewrite A0. cbn [bind]. rewrite A1. cbn [bind]. rewrite A2. cbn [bind]. rewrite A3. reflexivity.
Qed.
Lemma mid_line : forall c v, 1 <= c -> no_space v -> forall f x acc, p_mid f (mk_a c 0 (NL :: v)) x acc = p_tail f (mk_a 1 0 v) x acc.
Proof.
  intros c v C NS f x acc. unfold p_mid. ops. rewrite (isb0 c _ (txt " @@" ++ [NL]) C) by noend. change (prefix (txt " @@" ++ [NL]) (NL :: v)) with false. ops.
  rewrite (isb0 c _ (txt " @" ++ [NL]) C) by noend. change (prefix (txt " @" ++ [NL]) (NL :: v)) with false. ops. rewrite (isb0 c _ [NL] C) by noend. change (prefix [NL] (NL :: v)) with true. ops. rewrite adv_nl by auto. ops. rewrite tail_no_space by auto. ops. rewrite !app_nil_r. reflexivity.
Qed.
Lemma last_reads : forall u ds x acc c, 1 <= c -> (forall c, 1 <= c -> reads c u ds) -> ev (fun f => p_last f (mk_a c 0 u) x acc) (Some (Command x (acc ++ [Sequence ds]))) [].
Proof.
  intros u ds x acc c C R. destruct (R c C []) as [c2 [s2 [C2 [[f0 H0] [c3 [C3 [f1 H1]]]]]]]. exists c3. split; auto. exists (f0 + f1). intros f Hf. unfold p_last. rewrite H0 by lia. cbn [bind]. rewrite H1 by lia. reflexivity.
Qed.
Lemma starts_no_nl : forall u, u = [] \/ starts_line u -> no_nl u.
Proof. intros u [->|H]; [exact I|]. destruct u; [exact I|exact H]. Qed.

Definition P_eol (d : list doc) (e : text) (b : bool) : Prop := forall a s c v, w_args a s -> 1 <= c -> no_space v -> (b = true -> no_nl v) ->
  exists c', 1 <= c' /\ exists f0, forall f, f >= f0 -> forall x acc, p_command a_ops (S f) (mk_a c 0 (s ++ e ++ v)) x acc = p_tail f (mk_a c' 0 v) x ((acc ++ a) ++ d).
Definition P_rounds (a : list doc) (r : text) (b : bool) : Prop := forall x c u acc, 1 <= c -> no_space u -> no_more u -> u <> [64%Z] -> (b = true -> no_nl u) ->
  ev (fun f => p_command a_ops f (mk_a c 0 (r ++ u)) x acc) (Some (Command x (acc ++ a))) u.
Definition P_final (a : list doc) (r : text) : Prop := forall x c u ds acc, 1 <= c -> (forall c, 1 <= c -> reads c u ds) ->
  ev (fun f => p_command a_ops f (mk_a c 0 (r ++ u)) x acc) (Some (Command x (acc ++ a ++ [Sequence ds]))) [].
Lemma eol_round : forall a s d e b w, P_eol d e b -> w_args a s -> round_first w -> forall c, 1 <= c -> exists c', 1 <= c' /\ exists f0, forall f, f >= f0 -> forall x acc,
  p_command a_ops (S f) (mk_a c 0 (s ++ e ++ 64%Z :: w)) x acc = p_command a_ops f (mk_a c' 0 w) x (acc ++ a ++ d).
Proof.
  intros a s d e b w E Wa R c C. destruct (E a s c (64%Z :: w) Wa C) as [c1 [C1 [f0 H]]]; [cbn; discriminate|cbn; discriminate|]. destruct (next_round c1 w C1 R) as [c2 [C2 H2]]. exists c2. split; auto. exists f0. intros f Hf x acc. rewrite H, H2 by auto. rewrite <- app_assoc. reflexivity.
Qed.
Lemma r_docs : (forall ds s, w_doc ds s -> forall c, 1 <= c -> reads c s ds) /\ (forall d e b, w_eol d e b -> P_eol d e b) /\ (forall a r b, w_rounds a r b -> P_rounds a r b) /\ (forall a r, w_final a r -> P_final a r).
Proof.
  apply w_docind.
  - intros c C acc. exists c, []. split; auto. split.
    + exists 1. intros [|f] Hf; [lia|]. cbn [p_blank]. ops. rewrite isb0 by (auto; noend). reflexivity.
    + exists c. split; auto. exists 1. intros [|f] Hf; [lia|]. cbn [p_block]. ops. unfold peek. cbn [a_rest]. replace (look _ []) with (END, 0) by (destruct (_ - _); reflexivity). rewrite app_nil_r. reflexivity.
  - intros ds s W IH c C acc. destruct (adv0 c NL s C ltac:(discriminate)) as [c1 [C1 A]]. destruct (IH c1 C1 acc) as [c2 [s2 [C2 [[f0 H] K]]]]. exists c2, s2. split; auto. split; auto. exists (S f0). intros [|f] Hf; [lia|].
    cbn [p_blank]. ops. change 10%Z with NL. rewrite isb0 by (auto; noend). change (prefix [NL] (NL :: s)) with true. cbv iota. rewrite A. cbn [bind]. apply H. lia.
  - intros p s ds u L S W IH SU c C. apply r_paragraph; auto. eapply w_doc_noend; eauto.
  - intros x args p s ds u N L W IH SU c C. apply r_paragraph_at; auto. eapply w_doc_noend; eauto.
  - intros x args s b ds u N F Wr IHr W IH B c C. destruct (doc_start _ _ W) as [D1 [D2 D3]]. apply r_step with (u := u); auto.
    + eapply round_no_name, rounds_start; eauto.
    + intros c1 C1. apply IHr; auto. intros E. apply starts_no_nl. auto.
  - intros x args s ds u N F Wr IHr W IH c C. rewrite <- (app_nil_r []). apply r_step with (u := []); auto.
    + eapply round_no_name, final_start; eauto.
    + intros c1 C1. apply (IHr x c1 u ds []); auto.
    + intros c1 C1 acc. exists c1, []. split; auto. split.
      * exists 1. intros [|f] Hf; [lia|]. cbn [p_blank]. ops. rewrite isb0 by (auto; noend). reflexivity.
      * exists c1. split; auto. exists 1. intros [|f] Hf; [lia|]. cbn [p_block]. ops. unfold peek. cbn [a_rest]. replace (look _ []) with (END, 0) by (destruct (_ - _); reflexivity). rewrite app_nil_r. reflexivity.
  - intros d sl W a s c v Wa C NS _. rewrite <- app_assoc. destruct (r_to_eol a s d sl ([10%Z] ++ v) c Wa W ltac:(exists v; left; reflexivity) C) as [c1 [C1 [f0 H]]]. exists 1. split; auto. exists f0. intros f Hf x acc. rewrite H by auto. apply mid_line; auto.
  - intros d sl v0 x0 n W NE NX a s c v Wa C NS NN. specialize (NN eq_refl).
    set (t := v0 ++ [x0; 10%Z] ++ repeat 10%Z n) in *. assert (K : nl_ok (mk_a 1 0 t)).
    { split; cbn [a_rest].
      - right. unfold t. destruct n as [|n]; [exists (v0 ++ [x0]); cbn; rewrite <- app_assoc; reflexivity|]. exists (v0 ++ [x0; 10%Z] ++ repeat 10%Z n). cbn [repeat]. rewrite repeat_cons, <- !app_assoc. reflexivity.
      - unfold t. rewrite !in_app_iff in *. cbn in *. intros [I|[I|I]]; [tauto| |apply repeat_spec in I; discriminate]. unfold END in *. intuition discriminate. }
    destruct (r_to_eol a s d sl ((txt " @" ++ [10%Z]) ++ indented t ++ v) c Wa W ltac:(exists (indented t ++ v); right; left; reflexivity) C) as [c1 [C1 [f0 H]]]. destruct (r_literal_lines t v c1 C1 K NS NN) as [f1 H1]. exists 1. split; auto. exists (f0 + f1). intros f Hf x acc.
    replace (s ++ (sl ++ txt " @" ++ 10%Z :: indented t) ++ v) with (s ++ sl ++ (txt " @" ++ [10%Z]) ++ indented t ++ v) by (rewrite <- !app_assoc; reflexivity).
    rewrite H by lia. change 10%Z with NL at 1. rewrite H1 by lia. unfold t. rewrite strip_ends by auto. rewrite <- !app_assoc. reflexivity.
  - intros d sl dt t W Wt IH St a s c v Wa C NS NN. specialize (NN eq_refl).
    destruct (r_to_eol a s d sl (NL :: indented t ++ v) c Wa W ltac:(exists (indented t ++ v); left; reflexivity) C) as [c1 [C1 [f0 H]]].
    destruct (r_argument t v c1 (Some (Sequence dt)) C1) as [f1 H1]; auto.
    { split; [eapply w_doc_ends|eapply w_doc_noend]; eauto. }
    { destruct (IH 1 ltac:(lia) []) as [c2 [s2 [C2 [[f2 H2] [c3 [C3 [f3 H3]]]]]]]. exists (f2 + f3). intros f Hf. do 2 eexists. split; [apply H2; lia|apply H3; lia]. }
    exists 1. split; auto. exists (f0 + f1). intros f Hf x acc. replace (s ++ (sl ++ 10%Z :: indented t) ++ v) with (s ++ sl ++ NL :: indented t ++ v) by (rewrite <- !app_assoc; reflexivity).
    rewrite H by lia. destruct (H1 f ltac:(lia)) as [b2 H2]. rewrite H2, <- !app_assoc. reflexivity.
  - intros a s d e b Wa We IH x c u acc C NS NM N1 B. destruct (IH a s c u Wa C NS B) as [c1 [C1 [f0 H]]]. exists c1. split; auto. exists (S f0). intros [|f] Hf; [lia|]. rewrite <- app_assoc, H by lia. rewrite tail_stop by auto. rewrite <- app_assoc. reflexivity.
  - intros a s d e b a' r b' Wa We IH Wr IHr x c u acc C NS NM N1 B. destruct (eol_round a s d e b (r ++ u) IH Wa (rounds_start _ _ _ _ Wr) c C) as [c1 [C1 [f0 H]]].
    destruct (IHr x c1 u (acc ++ a ++ d) C1 NS NM N1 B) as [c2 [C2 [f1 H1]]]. exists c2. split; auto. exists (S (f0 + f1)). intros [|f] Hf; [lia|].
    replace ((s ++ e ++ 64%Z :: r) ++ u) with (s ++ e ++ 64%Z :: r ++ u) by (rewrite <- !app_assoc; reflexivity). rewrite H, H1 by lia. rewrite <- !app_assoc. reflexivity.
  - intros a s d e Wa We x c u ds acc C R. destruct (r_to_eol a s d e ((txt " @@" ++ [10%Z]) ++ u) c Wa We ltac:(exists u; right; right; reflexivity) C) as [c1 [C1 [f0 H]]]. destruct (mid_final c1 u C1) as [c2 [C2 H2]].
    destruct (last_reads u ds x ((acc ++ a) ++ d) c2 C2 R) as [c3 [C3 [f1 H3]]]. exists c3. split; auto. exists (S (f0 + f1)). intros [|f] Hf; [lia|].
    replace ((s ++ e ++ txt " @@" ++ [10%Z]) ++ u) with (s ++ e ++ (txt " @@" ++ [10%Z]) ++ u) by (rewrite <- !app_assoc; reflexivity). rewrite H, H2, H3 by lia. rewrite <- !app_assoc. reflexivity.
  - intros a s d e b Wa We IH x c u ds acc C R. destruct (IH a s c (txt "@@" ++ [10%Z] ++ u) Wa C) as [c1 [C1 [f0 H]]]; [cbn; discriminate|cbn; discriminate|]. destruct (tail_final c1 u C1) as [c2 [C2 H2]].
    destruct (last_reads u ds x ((acc ++ a) ++ d) c2 C2 R) as [c3 [C3 [f1 H3]]]. exists c3. split; auto. exists (S (f0 + f1)). intros [|f] Hf; [lia|].
    replace ((s ++ e ++ txt "@@" ++ [10%Z]) ++ u) with (s ++ e ++ txt "@@" ++ [10%Z] ++ u) by (rewrite <- !app_assoc; reflexivity). rewrite H, H2, H3 by lia. rewrite <- !app_assoc. reflexivity.
  - intros a s d e b a' r Wa We IH Wr IHr x c u ds acc C R. destruct (eol_round a s d e b (r ++ u) IH Wa (final_start _ _ _ Wr) c C) as [c1 [C1 [f0 H]]].
    destruct (IHr x c1 u ds (acc ++ a ++ d) C1 R) as [c2 [C2 [f1 H1]]]. exists c2. split; auto. exists (S (f0 + f1)). intros [|f] Hf; [lia|].
    replace ((s ++ e ++ 64%Z :: r) ++ u) with (s ++ e ++ 64%Z :: r ++ u) by (rewrite <- !app_assoc; reflexivity). rewrite H, H1 by lia. rewrite <- !app_assoc. reflexivity.
Qed.
Definition r_doc := proj1 r_docs.
