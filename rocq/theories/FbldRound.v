(** * Arguments that are written are read back. *)
From Coq Require Import ZArith String Ascii List Arith Lia Bool.
From Verif Require Import FbldModel FbldSpec FbldParse FbldLex FbldParseTot FbldParseMono FbldGrammar.
Import ListNotations.
Local Open Scope list_scope.
Notation length := List.length.
Notation bind := FbldModel.bind.

Definition ev {A} (p : nat -> out (A * alex)) (v : A) (u : text) : Prop := exists c', 1 <= c' /\ exists f0, forall f, f >= f0 -> p f = Ok (v, mk_a c' 0 u).
Lemma isb0 : forall c t s, 1 <= c -> ~ In END s -> a_isb (mk_a c 0 t) s = prefix s t.
Proof.
  intros c t [|x s] C N; [reflexivity|]. cbn [a_isb]. unfold peek. cbn [a_ind a_col a_rest]. replace (0 + 1 - c) with 0 by lia. destruct t as [|y t]; [reflexivity|]. cbn [look prefix].
  destruct (Z.eqb_spec x y) as [->|]; [|rewrite andb_false_r; reflexivity]. destruct (Z.eqb_spec y END) as [->|]; [destruct N; left; auto|]. reflexivity.
Qed.
Lemma peek0 : forall c x t, 1 <= c -> fst (peek (mk_a c 0 (x :: t))) = x.
Proof. intros. unfold peek. cbn [a_ind a_col a_rest]. replace (0 + 1 - c) with 0 by lia. reflexivity. Qed.
Lemma columns_pos : forall t c, 1 <= c -> 1 <= columns c t.
Proof. induction t as [|x t IH]; intros c C; [exact C|]. change (1 <= columns (if (x =? NL)%Z then 1 else S c) t). apply IH. destruct (x =? NL)%Z; lia. Qed.
Lemma adv0 : forall c x t, 1 <= c -> x <> END -> exists c', 1 <= c' /\ a_advance (mk_a c 0 (x :: t)) = Ok (mk_a c' 0 t).
Proof.
  intros c x t C N. unfold a_advance, a_next. pose proof (peek0 c x t C) as P. unfold peek in *. cbn [a_ind a_col a_rest] in *. replace (0 + 1 - c) with 0 in * by lia. cbn [look fst] in *.
  apply Z.eqb_neq in N. rewrite N. exists (columns c [x]). split; [apply columns_pos; auto|]. reflexivity.
Qed.
Lemma name_dec : forall c, is_name_char c = true <-> name_char c.
Proof. intros c. unfold is_name_char, name_char. rewrite !orb_true_iff, !andb_true_iff, Z.eqb_eq, !Z.leb_le. tauto. Qed.
Lemma name_end : forall c, name_char c -> c <> END. Proof. unfold name_char, END. intros. lia. Qed.
Lemma pre1 : forall a y u, prefix (txt (String a "")) (y :: u) = (Z.of_nat (nat_of_ascii a) =? y)%Z.
Proof. intros. cbn [txt list_ascii_of_string map prefix]. apply andb_true_r. Qed.
Ltac noend := cbn; unfold END; intuition discriminate.

Definition no_name (u : text) : Prop := match u with [] => True | c :: _ => ~ name_char c end.
Lemma r_name : forall x u acc c, Forall name_char x -> no_name u -> 1 <= c -> ev (fun f => p_name a_ops f (mk_a c 0 (x ++ u)) acc) (acc ++ x) u.
Proof.
  induction x as [|y x IH]; intros u acc c F N C.
  - exists c. split; auto. exists 1. intros [|f] Hf; [lia|]. cbn [p_name app]. ops. rewrite app_nil_r. destruct u as [|z u].
    + unfold peek. cbn [a_rest]. destruct (_ - _); reflexivity.
    + rewrite peek0 by auto. destruct (is_name_char z) eqn:E; auto. apply name_dec in E. destruct (N E).
  - inversion F as [|? ? Fy Fx]; subst. destruct (adv0 c y (x ++ u) C (name_end _ Fy)) as [c1 [C1 A]]. destruct (IH u (acc ++ [y]) c1 Fx N C1) as [c2 [C2 [f0 H]]].
    exists c2. split; auto. exists (S f0). intros [|f] Hf; [lia|]. cbn [p_name app]. ops. rewrite peek0 by auto. rewrite (proj2 (name_dec y) Fy), A. cbn [bind]. rewrite H by lia. rewrite <- app_assoc. reflexivity.
Qed.
Lemma r_literal : forall t n u acc c, closes n t -> 1 <= c -> ev (fun f => p_literal a_ops f (mk_a c 0 (t ++ 125%Z :: u)) n acc) (Some (acc ++ t)) (125%Z :: u).
Proof.
  intros t n u acc c K. revert acc c. induction K as [|n t K IH|n t K IH|n x t N1 N2 P K IH]; intros acc c C.
  - exists c. split; auto. exists 1. intros [|f] Hf; [lia|]. cbn [p_literal app Nat.ltb Nat.leb]. ops. rewrite isb0 by (auto; noend). rewrite app_nil_r. reflexivity.
  - destruct (adv0 c 123%Z (t ++ 125%Z :: u) C ltac:(discriminate)) as [c1 [C1 A]]. destruct (IH (acc ++ [123%Z]) c1 C1) as [c2 [C2 [f0 H]]]. exists c2. split; auto. exists (S f0). intros [|f] Hf; [lia|].
    cbn [p_literal app]. assert (B : (if 0 <? n then Ok (false, mk_a c 0 (123%Z :: t ++ 125%Z :: u)) else o_is a_ops (mk_a c 0 (123%Z :: t ++ 125%Z :: u)) (txt "}")) = Ok (false, mk_a c 0 (123%Z :: t ++ 125%Z :: u))).
    { destruct (0 <? n); auto. ops. rewrite isb0 by (auto; noend). reflexivity. }
    rewrite B. cbn [bind]. ops. rewrite peek0, !isb0 by (auto; noend). cbn [prefix txt]. cbn. rewrite A. cbn [bind]. rewrite H by lia. rewrite <- app_assoc. reflexivity.
  - destruct (adv0 c 125%Z (t ++ 125%Z :: u) C ltac:(discriminate)) as [c1 [C1 A]]. destruct (IH (acc ++ [125%Z]) c1 C1) as [c2 [C2 [f0 H]]]. exists c2. split; auto. exists (S f0). intros [|f] Hf; [lia|].
    cbn [p_literal app Nat.ltb Nat.leb]. ops. rewrite peek0, !isb0 by (auto; noend). cbn. rewrite A. cbn [bind]. rewrite H by lia. rewrite <- app_assoc. reflexivity.
  - destruct (adv0 c x (t ++ 125%Z :: u) C P) as [c1 [C1 A]]. destruct (IH (acc ++ [x]) c1 C1) as [c2 [C2 [f0 H]]]. exists c2. split; auto. exists (S f0). intros [|f] Hf; [lia|].
    apply Z.eqb_neq in N1. apply Z.eqb_neq in N2. apply Z.eqb_neq in P. rewrite Z.eqb_sym in N1, N2.
    cbn [p_literal app]. assert (B : (if 0 <? n then Ok (false, mk_a c 0 (x :: t ++ 125%Z :: u)) else o_is a_ops (mk_a c 0 (x :: t ++ 125%Z :: u)) (txt "}")) = Ok (false, mk_a c 0 (x :: t ++ 125%Z :: u))).
    { destruct (0 <? n); auto. ops. rewrite isb0, pre1 by (auto; noend). change (Z.of_nat _) with 125%Z. rewrite N2. reflexivity. }
    rewrite B. cbn [bind]. ops. rewrite peek0, !isb0 by (auto; noend). change (x =? END)%Z with (x =? 3)%Z. rewrite P, !pre1. change (Z.of_nat (nat_of_ascii "{")) with 123%Z. change (Z.of_nat (nat_of_ascii "}")) with 125%Z. rewrite N1, N2. cbv zeta. rewrite A. cbn [bind]. rewrite H by lia. rewrite <- app_assoc. reflexivity.
Qed.
Lemma chars_isb : forall c y u a, 1 <= c -> Z.of_nat (nat_of_ascii a) <> END -> a_isb (mk_a c 0 (y :: u)) (txt (String a "")) = (Z.of_nat (nat_of_ascii a) =? y)%Z.
Proof. intros. rewrite isb0, pre1; auto. cbn. tauto. Qed.

Definition no_arg (u : text) : Prop := match u with [] => True | c :: _ => c <> 91%Z /\ c <> 123%Z end.
Lemma r_no_arg : forall c u, 1 <= c -> no_arg u -> a_isb (mk_a c 0 u) (txt "[") = false /\ a_isb (mk_a c 0 u) (txt "{") = false.
Proof.
  intros c u C N. rewrite !isb0 by (auto; noend). destruct u as [|y u]; [split; reflexivity|]. rewrite !pre1. destruct N as [N1 N2].
  split; apply Z.eqb_neq; intros E; [apply N1|apply N2]; rewrite <- E; reflexivity.
Qed.
Lemma r_char : forall x s, w_char x s -> forall rest chars acc v u, (forall c, 1 <= c -> ev (fun f => p_inline a_ops f (mk_a c 0 rest) InlineArg (chars ++ [x]) acc) v u) ->
  forall c, 1 <= c -> ev (fun f => p_inline a_ops f (mk_a c 0 (s ++ rest)) InlineArg chars acc) v u.
Proof.
  intros x s W rest chars acc v u K c C. inversion W as [y P N1 N2 N3|y P|]; subst.
  - destruct (adv0 c x rest C P) as [c1 [C1 A]]. destruct (K c1 C1) as [c2 [C2 [f0 H]]]. exists c2. split; auto. exists (S f0). intros [|f] Hf; [lia|].
    cbn [p_inline app]. ops. rewrite !chars_isb by (auto; discriminate). rewrite peek0 by auto. change (Z.of_nat (nat_of_ascii "]")) with 93%Z. change (Z.of_nat (nat_of_ascii "@")) with 64%Z. change (Z.of_nat (nat_of_ascii "\")) with 92%Z.
    apply Z.eqb_neq in P. change (x =? 3)%Z with (x =? END)%Z in P. rewrite P. apply Z.eqb_neq in N1. apply Z.eqb_neq in N2. apply Z.eqb_neq in N3. rewrite Z.eqb_sym in N1, N2, N3. rewrite N1, N2, N3, A. cbn [bind]. apply H. lia.
  - assert (NX : x <> END) by (unfold END; lia). destruct (adv0 c 92%Z (x :: rest) C ltac:(discriminate)) as [c1 [C1 A]]. destruct (adv0 c1 x rest C1 NX) as [c2 [C2 A2]]. destruct (K c2 C2) as [c3 [C3 [f0 H]]].
    exists c3. split; auto. exists (S f0). intros [|f] Hf; [lia|]. cbn [p_inline app]. ops. rewrite !chars_isb by (auto; discriminate). rewrite peek0 by auto.
    change (92 =? END)%Z with false. change (Z.of_nat (nat_of_ascii "]") =? 92)%Z with false. change (Z.of_nat (nat_of_ascii "@") =? 92)%Z with false. change (Z.of_nat (nat_of_ascii "\") =? 92)%Z with true. cbv iota. rewrite A. cbn [bind]. rewrite peek0 by auto.
    assert (E : escaped x = Some x) by (destruct P as [->|[->|[->| ->]]]; reflexivity). rewrite E, A2. cbn [bind]. apply H. lia.
  - destruct (adv0 c 92%Z (110%Z :: rest) C ltac:(discriminate)) as [c1 [C1 A]]. destruct (adv0 c1 110%Z rest C1 ltac:(discriminate)) as [c2 [C2 A2]]. destruct (K c2 C2) as [c3 [C3 [f0 H]]].
    exists c3. split; auto. exists (S f0). intros [|f] Hf; [lia|]. cbn [p_inline app]. ops. rewrite !chars_isb by (auto; discriminate). rewrite peek0 by auto.
    change (92 =? END)%Z with false. change (Z.of_nat (nat_of_ascii "]") =? 92)%Z with false. change (Z.of_nat (nat_of_ascii "@") =? 92)%Z with false. change (Z.of_nat (nat_of_ascii "\") =? 92)%Z with true. cbv iota. rewrite A. cbn [bind]. rewrite peek0 by auto.
    change (escaped 110) with (Some NL). cbv iota. rewrite A2. cbn [bind]. apply H. lia.
Qed.
Lemma r_text : forall t s, w_text t s -> forall rest chars acc v u, (forall c, 1 <= c -> ev (fun f => p_inline a_ops f (mk_a c 0 rest) InlineArg (chars ++ t) acc) v u) ->
  forall c, 1 <= c -> ev (fun f => p_inline a_ops f (mk_a c 0 (s ++ rest)) InlineArg chars acc) v u.
Proof.
  intros t s W. induction W as [|x s t u' Wc W IH]; intros rest chars acc v u K c C.
  - cbn [app]. specialize (K c C). rewrite app_nil_r in K. exact K.
  - rewrite <- app_assoc. eapply r_char; eauto. intros c1 C1. apply IH; auto. intros c2 C2. rewrite <- app_assoc. apply K. auto.
Qed.
Lemma args_start : forall ds s, w_args ds s -> (ds = [] /\ s = []) \/ (ds <> [] /\ exists c r, s = c :: r /\ (c = 123 \/ c = 91)%Z).
Proof. intros ds s W. destruct W; [left; auto|right|right]; (split; [discriminate|]); do 2 eexists; (split; [reflexivity|auto]). Qed.

Lemma r_mutual : (forall ds s, w_args ds s -> forall c u acc, 1 <= c -> no_arg u -> ev (fun f => p_args a_ops f (mk_a c 0 (s ++ u)) acc) (Some (acc ++ ds)) u) /\
  (forall ds s, w_inline ds s -> forall c u chars acc, 1 <= c -> chars = [] \/ no_text_first ds -> ev (fun f => p_inline a_ops f (mk_a c 0 (s ++ 93%Z :: u)) InlineArg chars acc) (Some (inline_of (acc ++ plains chars ++ ds))) (93%Z :: u)).
Proof.
  apply w_mutind.
  - intros c u acc C N. destruct (r_no_arg c u C N) as [E1 E2]. exists c. split; auto. exists 1. intros [|f] Hf; [lia|]. cbn [p_args app]. ops. rewrite E1. ops. rewrite E2. cbn [negb]. rewrite app_nil_r. reflexivity.
  - intros t ds u' Wt Wa IH c u acc C N. cbn [app]. rewrite <- app_assoc. cbn [app].
    destruct (adv0 c 123%Z (t ++ 125%Z :: u' ++ u) C ltac:(discriminate)) as [c1 [C1 A1]]. destruct (r_literal t 0 (u' ++ u) [] c1 Wt C1) as [c2 [C2 [f0 H]]]. destruct (adv0 c2 125%Z (u' ++ u) C2 ltac:(discriminate)) as [c3 [C3 A3]].
    destruct (IH c3 u (acc ++ [Plain t]) C3 N) as [c4 [C4 [f1 H1]]]. exists c4. split; auto. exists (S (f0 + f1)). intros [|f] Hf; [lia|].
    cbn [p_args]. ops. rewrite !chars_isb by (auto; discriminate). change (Z.of_nat (nat_of_ascii "[") =? 123)%Z with false. change (Z.of_nat (nat_of_ascii "{") =? 123)%Z with true. ops. rewrite !chars_isb by (auto; discriminate).
    change (Z.of_nat (nat_of_ascii "{") =? 123)%Z with true. cbn [negb]. ops. rewrite A1. cbn [bind]. rewrite H by lia. cbn [bind app]. rewrite A3. cbn [bind]. rewrite H1 by lia. rewrite <- app_assoc. reflexivity.
  - intros p s ds u' Wp IHp Wa IH c u acc C N. cbn [app]. rewrite <- app_assoc. cbn [app].
    destruct (adv0 c 91%Z (s ++ 93%Z :: u' ++ u) C ltac:(discriminate)) as [c1 [C1 A1]]. destruct (IHp c1 (u' ++ u) [] [] C1 (or_introl eq_refl)) as [c2 [C2 [f0 H]]]. destruct (adv0 c2 93%Z (u' ++ u) C2 ltac:(discriminate)) as [c3 [C3 A3]].
    destruct (IH c3 u (acc ++ [doc_of p]) C3 N) as [c4 [C4 [f1 H1]]]. exists c4. split; auto. exists (S (f0 + f1)). intros [|f] Hf; [lia|].
    cbn [p_args]. ops. rewrite !chars_isb by (auto; discriminate). change (Z.of_nat (nat_of_ascii "[") =? 91)%Z with true. ops. rewrite !chars_isb by (auto; discriminate).
    change (Z.of_nat (nat_of_ascii "{") =? 91)%Z with false. change (Z.of_nat (nat_of_ascii "[") =? 91)%Z with true. cbn [negb]. ops. rewrite A1. cbn [bind]. rewrite H by lia. cbn [bind app plains]. rewrite chars_isb by (auto; discriminate).
    change (Z.of_nat (nat_of_ascii "]") =? 93)%Z with true. cbv iota. rewrite A3. cbn [bind]. change (inline_of p) with (doc_of p). rewrite H1 by lia. rewrite <- app_assoc. reflexivity.
  - intros c u chars acc C _. exists c. split; auto. exists 1. intros [|f] Hf; [lia|]. cbn [p_inline app]. ops. rewrite chars_isb by (auto; discriminate). change (Z.of_nat (nat_of_ascii "]") =? 93)%Z with true. cbv iota. rewrite app_nil_r. reflexivity.
  - intros t s ds u' Nt Wt Ns Wi IH c u chars acc C [->|D]; [|destruct D]. rewrite <- app_assoc. eapply r_text; eauto. intros c1 C1. destruct (IH c1 u t acc C1 (or_intror Ns)) as [c2 [C2 [f0 H]]]. exists c2. split; auto. exists f0. intros f Hf. cbn [app plains].
    rewrite H by lia. destruct t; [congruence|]. reflexivity.
  - intros x args s ds u' Fx Wa IHa F Wi IH c u chars acc C _. cbn [app]. rewrite <- !app_assoc.
    destruct (adv0 c 64%Z (x ++ s ++ u' ++ 93%Z :: u) C ltac:(discriminate)) as [c1 [C1 A1]].
    assert (NA : no_arg (u' ++ 93%Z :: u)). { destruct u' as [|y u']; cbn; [split; discriminate|]. destruct F as [F1 [F2 _]]. auto. }
    destruct (r_name x (s ++ u' ++ 93%Z :: u) [] c1 Fx) as [c2 [C2 [f0 H0]]]; auto.
    { destruct (args_start _ _ Wa) as [[-> ->]|[_ [y [r [-> Y]]]]]; [|cbn; unfold name_char; lia]. destruct u' as [|y u']; cbn; [unfold name_char; lia|]. destruct F as [_ [_ F]]. auto. }
    destruct (IHa c2 (u' ++ 93%Z :: u) [] C2 NA) as [c3 [C3 [f1 H1]]]. destruct (IH c3 u [] (acc ++ plains chars ++ [Command x args]) C3 (or_introl eq_refl)) as [c4 [C4 [f2 H2]]].
    exists c4. split; auto. exists (S (f0 + f1 + f2)). intros [|f] Hf; [lia|]. cbn [p_inline]. ops. rewrite !chars_isb by (auto; discriminate). rewrite peek0 by auto.
    change (Z.of_nat (nat_of_ascii "]") =? 64)%Z with false. change (64 =? END)%Z with false. change (Z.of_nat (nat_of_ascii "@") =? 64)%Z with true. cbv iota. rewrite A1. cbn [bind]. rewrite H0 by lia. cbn [bind app]. rewrite H1 by lia. cbn [bind app]. rewrite H2 by lia. cbn [plains app]. rewrite <- !app_assoc. reflexivity.
Qed.

Lemma token_false : forall c t s, 1 <= c -> ~ In END s -> prefix s t = false -> a_isb (mk_a c 0 t) s = false.
Proof. intros. rewrite isb0; auto. Qed.
Definition no_space (u : text) : Prop := match u with [] => True | c :: _ => c <> 32%Z end.
Definition no_more (u : text) : Prop := match u with 64%Z :: c :: r => (c = 64%Z -> match r with z :: _ => z <> NL | [] => True end) /\ c <> NL /\ c <> 32%Z /\ c <> 91%Z /\ c <> 123%Z | _ => True end.
Lemma no_more_isb : forall c u, 1 <= c -> no_more u -> u <> [64%Z] -> a_isb (mk_a c 0 u) (txt "@@" ++ [NL]) = false /\ a_isb (mk_a c 0 u) (txt "@" ++ [NL]) = false /\
  a_isb (mk_a c 0 u) (txt "@ ") = false /\ a_isb (mk_a c 0 u) (txt "@[") = false /\ a_isb (mk_a c 0 u) (txt "@{") = false.
Proof.
  intros c u C N N1. rewrite !isb0 by (auto; noend). destruct u as [|y [|z u]]; [repeat split; reflexivity| |].
  - cbn [txt list_ascii_of_string map prefix app]. rewrite !andb_false_r. repeat split; reflexivity.
  - cbn [txt list_ascii_of_string map prefix app]. destruct (Z.eq_dec y 64) as [->|Y].
    + destruct N as [A [B [D [E F]]]]. change (Z.of_nat (nat_of_ascii "@")) with 64%Z. change (Z.of_nat (nat_of_ascii " ")) with 32%Z. change (Z.of_nat (nat_of_ascii "[")) with 91%Z. change (Z.of_nat (nat_of_ascii "{")) with 123%Z.
      apply not_eq_sym, Z.eqb_neq in B, D, E, F. rewrite B, D, E, F. split; [|repeat split; reflexivity]. destruct (Z.eqb_spec 64 z) as [<-|]; [|reflexivity]. specialize (A eq_refl). destruct u as [|w u]; [reflexivity|]. apply not_eq_sym, Z.eqb_neq in A. rewrite A. reflexivity.
    + apply not_eq_sym, Z.eqb_neq in Y. change (Z.of_nat (nat_of_ascii "@")) with 64%Z. rewrite Y. repeat split; reflexivity.
Qed.
Lemma no_arg_nl : forall u, no_arg (NL :: u). Proof. intros. cbn. split; discriminate. Qed.

(** ** The characters of what is written *)
Lemma closes_noend : forall n t, closes n t -> ~ In END t.
Proof. intros n t K. induction K; cbn; unfold plain_char, END in *; intuition (try discriminate). Qed.
Lemma w_char_noend : forall x s, w_char x s -> ~ In END s.
Proof. intros x s W. destruct W; cbn; unfold plain_char, END in *; intuition (try discriminate; try lia). Qed.
Lemma w_text_noend : forall t s, w_text t s -> ~ In END s.
Proof. intros t s W. induction W; [cbn; auto|]. rewrite in_app_iff. apply w_char_noend in H. tauto. Qed.
Lemma name_noend : forall x, Forall name_char x -> ~ In END x.
Proof. intros x F I. rewrite Forall_forall in F. apply (name_end _ (F _ I)). reflexivity. Qed.
Lemma w_noend : (forall ds s, w_args ds s -> ~ In END s) /\ (forall ds s, w_inline ds s -> ~ In END s).
Proof.
  apply w_mutind; try (cbn; tauto).
  - intros t ds u Wt _ IH. apply closes_noend in Wt. cbn. rewrite in_app_iff. cbn. unfold END in *. intuition discriminate.
  - intros p s ds u _ IHp _ IH. cbn. rewrite in_app_iff. cbn. unfold END in *. intuition discriminate.
  - intros t s ds u _ Wt _ _ IH. apply w_text_noend in Wt. rewrite in_app_iff. tauto.
  - intros x args s ds u F _ IHa _ _ IH. apply name_noend in F. cbn. rewrite !in_app_iff. unfold END in *. intuition discriminate.
Qed.
