(** * The names in generated C code are identifiers, fit their buffers and do not clash. *)
From Coq Require Import ZArith List Arith Lia Bool.
From Verif Require Import PathModel PathProps LinkModel GenModel.
Import ListNotations.

(** ** Hexadecimal numbers *)
Definition undigit (c : Z) : nat := if (c <? 58)%Z then Z.to_nat c - 48 else Z.to_nat c - 87.
Fixpoint unhex_rev (l : list Z) : nat := match l with [] => 0 | c :: r => undigit c + 16 * unhex_rev r end.
Definition unhex (l : str) : nat := unhex_rev (rev l).

Lemma undigit_hex : forall d, d < 16 -> undigit (hex_digit d) = d.
Proof. intros d L. do 16 (destruct d as [|d]; [reflexivity|]). lia. Qed.

Lemma unhex_hex_rev : forall k n, n <= k -> unhex_rev (hex_rev k n) = n.
Proof.
  induction k; intros n L; cbn [hex_rev unhex_rev]; [lia|].
  destruct (n =? 0) eqn:E; [apply Nat.eqb_eq in E; subst; reflexivity|]. apply Nat.eqb_neq in E.
  cbn [unhex_rev]. pose proof (Nat.mod_upper_bound n 16). pose proof (Nat.div_mod n 16).
  assert (D : n / 16 < n) by (apply Nat.div_lt; lia).
  rewrite undigit_hex, IHk by lia. lia.
Qed.

Lemma unhex_zeros : forall l n, unhex_rev (l ++ repeat (hex_digit 0) n) = unhex_rev l.
Proof.
  induction l as [|c l IH]; intros n; cbn [app unhex_rev]; [|rewrite IH; reflexivity].
  induction n; cbn [repeat unhex_rev]; [reflexivity|]. rewrite IHn. reflexivity.
Qed.

(** printf's %0Nx can be read back. *)
Lemma unhex_hex : forall w n, unhex (hex w n) = n.
Proof. intros w n. unfold unhex, hex. cbv zeta. rewrite rev_involutive, unhex_zeros. apply unhex_hex_rev. lia. Qed.

Lemma hex_inj : forall w v n m, hex w n = hex v m -> n = m.
Proof. intros w v n m H. rewrite <- (unhex_hex w n), <- (unhex_hex v m), H. reflexivity. Qed.

Lemma hex_rev_length : forall k n b, n < 16 ^ b -> length (hex_rev k n) <= b.
Proof.
  induction k; intros n b L; cbn [hex_rev]; [cbn; lia|]. destruct (n =? 0) eqn:E; [cbn; lia|]. apply Nat.eqb_neq in E.
  destruct b as [|b]; [cbn in L; lia|]. cbn [length]. apply le_n_S, IHk. apply Nat.div_lt_upper_bound; [lia|]. cbn [Nat.pow] in L. lia.
Qed.

Lemma hex_length : forall w n, n < 16 ^ w -> length (hex w n) = w.
Proof.
  intros w n L. unfold hex. cbv zeta. rewrite rev_length, app_length, repeat_length. pose proof (hex_rev_length n n w L). lia.
Qed.

(** The digits are letters and digits. *)
Lemma hex_digit_alnum : forall d, d < 16 -> is_alnum (hex_digit d) = true.
Proof. intros d L. do 16 (destruct d as [|d]; [reflexivity|]). lia. Qed.
Lemma hex_alnum : forall w n, Forall (fun c => is_alnum c = true) (hex w n).
Proof.
  intros w n. unfold hex. cbv zeta. apply Forall_rev, Forall_app. split.
  - generalize n at 1. intros k. revert n. induction k; intros n; cbn [hex_rev]; [constructor|]. destruct (n =? 0); constructor; auto.
    apply hex_digit_alnum. apply Nat.mod_upper_bound. lia.
  - apply Forall_forall. intros c I. apply repeat_spec in I. subst. reflexivity.
Qed.

(** ** Sanitized strings *)

(** ASCII text. *)
Definition ascii (s : str) : Prop := Forall (fun b => (0 < b < 128)%Z) s.

Lemma sanitize_app : forall a b, sanitize (a ++ b) =
  match sanitize a, sanitize b with Some x, Some y => Some (x ++ y) | _, _ => None end.
Proof.
  induction a as [|c a IH]; intros b; cbn [app sanitize]; [destruct (sanitize b); reflexivity|].
  rewrite IH. destruct (sanitize_char c), (sanitize a), (sanitize b); auto. rewrite app_assoc. reflexivity.
Qed.

Lemma alnum_range : forall c, is_alnum c = true -> (48 <= c <= 122)%Z /\ c <> us.
Proof. intros c. unfold is_alnum, us. lia. Qed.

Lemma hex2_len : forall c, (0 < c < 128)%Z -> length (hex 2 (Z.to_nat c)) = 2.
Proof. intros c H. apply hex_length. cbn. lia. Qed.

(** No buffer overflows exactly for ASCII text; then the result fills the array
    of SizeofSanitizedString bytes up to the terminating NUL. *)
Theorem sanitize_ascii : forall s, text_ok s -> (ascii s <-> exists x, sanitize s = Some x).
Proof.
  induction s as [|c s IH]; intros T; [split; [cbn; eauto|constructor]|].
  inversion T as [|? ? Tc Ts]; subst. specialize (IH Ts). cbn [sanitize]. unfold sanitize_char. split.
  - intros A. inversion A as [|? ? Ac As]; subst. apply IH in As. destruct As as [x ->].
    destruct (is_alnum c); [eauto|]. replace (128 <=? c)%Z with false by (symmetry; apply Z.leb_gt; lia). eauto.
  - intros [x E]. destruct (sanitize s) as [y|] eqn:Es; [|destruct (is_alnum c), (128 <=? c)%Z; discriminate].
    constructor; [|apply IH; eauto]. destruct (is_alnum c) eqn:Al; [apply alnum_range in Al; lia|]. destruct (128 <=? c)%Z eqn:G; [discriminate|]. apply Z.leb_gt in G. lia.
Qed.

Theorem sanitize_size : forall s x, text_ok s -> sanitize s = Some x -> S (length x) = sizeof_sanitized s.
Proof.
  induction s as [|c s IH]; intros x T E; cbn [sanitize] in E; [injection E as <-; reflexivity|].
  inversion T as [|? ? Tc Ts]; subst. destruct (sanitize_char c) as [y|] eqn:Ec; [|discriminate]. destruct (sanitize s) as [z|]; [|discriminate]. injection E as <-.
  cbn [sizeof_sanitized]. rewrite <- (IH z Ts eq_refl), app_length. unfold sanitize_char in Ec.
  destruct (is_alnum c) eqn:Al; [injection Ec as <-; cbn; lia|]. destruct (128 <=? c)%Z eqn:G; [discriminate|]. apply Z.leb_gt in G. injection Ec as <-.
  cbn [length]. rewrite app_length, hex2_len by lia. cbn. lia.
Qed.

(** Different strings stay different. *)
Theorem sanitize_inj : forall a b x, text_ok a -> text_ok b -> sanitize a = Some x -> sanitize b = Some x -> a = b.
Proof.
  induction a as [|c a IH]; intros b x Ta Tb Ea Eb; cbn [sanitize] in Ea.
  - injection Ea as <-. destruct b as [|d b]; auto. cbn [sanitize] in Eb. unfold sanitize_char in Eb.
    destruct (sanitize b); destruct (is_alnum d), (128 <=? d)%Z; discriminate.
  - destruct b as [|d b].
    { cbn [sanitize] in Eb. injection Eb as <-. unfold sanitize_char in Ea.
      destruct (sanitize a); destruct (is_alnum c), (128 <=? c)%Z; discriminate. }
    inversion Ta as [|? ? Tc Ta']; subst. inversion Tb as [|? ? Td Tb']; subst. cbn [sanitize] in Eb.
    destruct (sanitize_char c) as [y|] eqn:Ec; [|discriminate]. destruct (sanitize a) as [z|] eqn:Ez; [|discriminate]. injection Ea as <-.
    destruct (sanitize_char d) as [y'|] eqn:Ed; [|discriminate]. destruct (sanitize b) as [z'|] eqn:Ez'; [|discriminate]. injection Eb as Eq.
    unfold sanitize_char in Ec, Ed.
    assert (Q : c = d /\ z = z').
    { destruct (is_alnum c) eqn:Ac, (is_alnum d) eqn:Ad.
      - injection Ec as <-. injection Ed as <-. cbn in Eq. injection Eq as -> ->. auto.
      - exfalso. injection Ec as <-. destruct (128 <=? d)%Z; [discriminate|]. injection Ed as <-. cbn in Eq. injection Eq as E1 _. apply alnum_range in Ac. destruct Ac. congruence.
      - exfalso. injection Ed as <-. destruct (128 <=? c)%Z; [discriminate|]. injection Ec as <-. cbn in Eq. injection Eq as E1 _. apply alnum_range in Ad. destruct Ad. congruence.
      - destruct (128 <=? c)%Z eqn:Gc; [discriminate|]. destruct (128 <=? d)%Z eqn:Gd; [discriminate|]. apply Z.leb_gt in Gc, Gd. injection Ec as <-. injection Ed as <-.
        rewrite <- !app_comm_cons in Eq. injection Eq as Eq. rewrite <- !app_assoc in Eq.
        assert (Q : hex 2 (Z.to_nat d) = hex 2 (Z.to_nat c) /\ [us] ++ z' = [us] ++ z).
        { pose proof (hex2_len c ltac:(lia)) as Lc. pose proof (hex2_len d ltac:(lia)) as Ld.
          remember (hex 2 (Z.to_nat c)) as h1. remember (hex 2 (Z.to_nat d)) as h2. clear -Lc Ld Eq.
          destruct h1 as [|a [|b [|? ?]]]; try discriminate. destruct h2 as [|a' [|b' [|? ?]]]; try discriminate. cbn in Eq. injection Eq as -> -> ->. auto. }
        destruct Q as [Q1 Q2]. apply hex_inj in Q1. cbn in Q2. injection Q2 as ->. split; auto. lia. }
    destruct Q as [<- <-]. f_equal. apply (IH b z Ta' Tb' eq_refl Ez').
Qed.

(** C identifiers. *)
Definition ident_char (c : Z) : Prop := is_alnum c = true \/ c = us.
Definition identifier (s : str) : Prop :=
  Forall ident_char s /\ exists c r, s = c :: r /\ (c < 48 \/ 57 < c)%Z.

Lemma sanitize_ident : forall s x, sanitize s = Some x -> Forall ident_char x.
Proof.
  induction s as [|c s IH]; intros x E; cbn [sanitize] in E; [injection E as <-; constructor|].
  destruct (sanitize_char c) as [y|] eqn:Ec; [|discriminate]. destruct (sanitize s) as [z|]; [|discriminate]. injection E as <-.
  apply Forall_app. split; [|apply IH; reflexivity]. unfold sanitize_char in Ec.
  destruct (is_alnum c) eqn:Al; [injection Ec as <-; constructor; [left; auto|constructor]|].
  destruct (128 <=? c)%Z; [discriminate|]. injection Ec as <-. constructor; [right; auto|]. apply Forall_app. split; [|constructor; [right; auto|constructor]].
  eapply Forall_impl; [|apply hex_alnum]. intros d D. left. exact D.
Qed.

(** ** Run functions *)

(** Code blocks with different profile blocks have different names. *)
Theorem symbols_distinct : forall names b c x, symbol names b = Some x -> symbol names c = Some x -> b = c.
Proof.
  intros names b c x Eb Ec. unfold symbol in *.
  destruct (nth_error names b) as [s|]; [|discriminate]. destruct (nth_error names c) as [t|]; [|discriminate].
  destruct (sanitize s) as [y|]; [|discriminate]. destruct (sanitize t) as [z|]; [|discriminate]. injection Eb as <-. injection Ec as Eq.
  assert (L : forall (a a' h h' : list Z), ~ In us h -> ~ In us h' -> a ++ us :: h = a' ++ us :: h' -> h = h').
  { clear. induction a as [|c a IH]; intros a' h h' N N' E; destruct a' as [|c' a']; cbn in E.
    - injection E as E. auto.
    - exfalso. injection E as E1 E2. apply N. rewrite E2. apply in_or_app. right. left. auto.
    - exfalso. injection E as E1 E2. apply N'. rewrite <- E2. apply in_or_app. right. left. auto.
    - injection E as E1 E2. apply (IH a'); auto. }
  assert (H : forall w n, ~ In us (hex w n)).
  { intros w n I. pose proof (hex_alnum w n) as F. rewrite Forall_forall in F. apply F in I. apply alnum_range in I. destruct I. congruence. }
  apply L in Eq; auto. apply hex_inj in Eq. auto.
Qed.

(** They are identifiers: the name of a block starts with the / or % of the module path it
    belongs to. *)
Theorem symbol_identifier : forall (names : list str) b (s : str) x, nth_error names b = Some s ->
  (exists r, s = 47%Z :: r \/ s = 37%Z :: r) -> symbol names b = Some x -> identifier x.
Proof.
  intros names b s x En [r Sl] E. unfold symbol in E. rewrite En in E. destruct (sanitize s) as [y|] eqn:Es; [|discriminate]. injection E as <-.
  split.
  - apply Forall_app. split; [eapply sanitize_ident; eauto|]. constructor; [right; auto|]. eapply Forall_impl; [|apply hex_alnum]. intros c D. left. exact D.
  - destruct Sl as [-> | ->]; cbn [sanitize] in Es; destruct (sanitize r) as [z|]; try discriminate; cbn in Es; injection Es as <-; cbn; eexists; eexists; (split; [reflexivity|]); right; reflexivity.
Qed.

(** ** Module labels *)

Definition slashed (p : path) : str := flat_map (fun n => 47%Z :: n_str n) p.

Lemma label_names_eq : forall p, label_names p = sanitize (slashed p).
Proof.
  induction p as [|n p IH]; [reflexivity|]. cbn [label_names slashed flat_map].
  rewrite IH. change (47%Z :: n_str n) with ([47%Z] ++ n_str n). rewrite <- app_assoc, sanitize_app, sanitize_app.
  fold (slashed p). destruct (sanitize (n_str n)), (sanitize (slashed p)); reflexivity.
Qed.

(** The label of a module is _Fble and the sanitized /a/b% form of its path. *)
Lemma label_eq : forall p, label_for_path p =
  match sanitize (slashed p ++ [37%Z]) with Some x => Some ([95; 70; 98; 108; 101]%Z ++ x) | None => None end.
Proof.
  intros p. unfold label_for_path. rewrite label_names_eq, sanitize_app. destruct (sanitize (slashed p)); reflexivity.
Qed.

Lemma slashed_ok : forall p, path_ok p -> text_ok (slashed p).
Proof.
  induction 1 as [|n p Hn Hp IH]; [constructor|]. cbn [slashed flat_map]. constructor; [lia|]. apply Forall_app. split; auto.
Qed.
Lemma slash_ok : forall p, path_ok p -> text_ok (slashed p ++ [37%Z]).
Proof. intros p H. apply Forall_app. split; [apply slashed_ok; auto|]. constructor; [lia|constructor]. Qed.

Definition ascii_path (p : path) : Prop := Forall (fun n => ascii (n_str n)) p.

(** Labels can be made exactly for ASCII paths, and they fit their array. *)
Theorem label_ascii : forall p, path_ok p -> (ascii_path p <-> exists x, label_for_path p = Some x).
Proof.
  intros p H. rewrite label_eq. pose proof (sanitize_ascii _ (slash_ok p H)) as S.
  assert (A : ascii (slashed p ++ [37%Z]) <-> ascii_path p).
  { unfold ascii. rewrite Forall_app. clear. split.
    - intros [A _]. induction p as [|n p IH]; [constructor|]. cbn [slashed flat_map] in A. inversion A as [|? ? A1 A2]; subst.
      apply Forall_app in A2. destruct A2 as [A2 A3]. constructor; [exact A2|apply IH; exact A3].
    - intros A. split; [|repeat constructor; lia]. induction A as [|n p Hn Hp IH]; [constructor|]. cbn [slashed flat_map]. constructor; [lia|]. apply Forall_app. split; auto. }
  rewrite <- A, S. split.
  - intros [x ->]. eauto.
  - intros [x E]. destruct (sanitize (slashed p ++ [37%Z])) as [y|]; [eauto|discriminate].
Qed.

Theorem label_size_exact : forall p x, path_ok p -> label_for_path p = Some x -> S (length x) = label_size p.
Proof.
  intros p x H E. unfold label_for_path in E. destruct (label_names p) as [y|] eqn:Ey; [|discriminate]. injection E as <-.
  assert (L : label_size p = 10 + length y).
  { revert y Ey. induction H as [|n p Hn Hp IH]; intros y Ey; cbn [label_names label_size] in *; [injection Ey as <-; reflexivity|].
    destruct (sanitize (n_str n)) as [z|] eqn:Ez; [|discriminate]. destruct (label_names p) as [w|]; [|discriminate].
    specialize (IH w eq_refl). change (str) with (list Z) in *. injection Ey as <-.
    rewrite IH, <- (sanitize_size _ _ Hn Ez). cbn [length]. rewrite app_length. lia. }
  rewrite L. cbn [app length]. rewrite app_length. cbn. lia.
Qed.

Theorem label_identifier : forall p x, label_for_path p = Some x -> identifier x.
Proof.
  intros p x E. rewrite label_eq in E. destruct (sanitize (slashed p ++ [37%Z])) as [y|] eqn:Ey; [|discriminate]. injection E as <-.
  split; [|eexists; eexists; split; [reflexivity|lia]].
  apply (Forall_app _ [95; 70; 98; 108; 101]%Z y). split; [|eapply sanitize_ident; eauto].
  repeat constructor; (right; reflexivity) || (left; reflexivity).
Qed.

(** No name of the path contains a slash. *)
Definition no_slash (p : path) : Prop := Forall (fun n => ~ In 47%Z (n_str n)) p.

Lemma slashed_inj : forall p q, no_slash p -> no_slash q -> slashed p = slashed q -> map n_str p = map n_str q.
Proof.
  induction p as [|n p IH]; intros q Hp Hq E; destruct q as [|m q]; cbn [slashed flat_map map] in *; auto; try discriminate.
  injection E as E. fold (slashed p) in E. fold (slashed q) in E.
  inversion Hp as [|? ? Hn Hp']; subst. inversion Hq as [|? ? Hm Hq']; subst.
  assert (Q : n_str n = n_str m /\ slashed p = slashed q).
  { assert (Hd : forall r, slashed r = [] \/ exists x, slashed r = 47%Z :: x) by (intros [|a r]; [left|right; eexists]; reflexivity).
    pose proof (Hd p) as Dp. pose proof (Hd q) as Dq. clear -E Hn Hm Dp Dq.
    revert E Hn Hm. generalize (n_str n) as a, (n_str m) as b. induction a as [|x a IHa]; intros b E Na Nb; destruct b as [|y b]; cbn [app] in E.
    - auto.
    - exfalso. destruct Dp as [Dp|[z Dp]]; rewrite Dp in E; [discriminate|]. injection E as <- _. apply Nb. left. auto.
    - exfalso. destruct Dq as [Dq|[z Dq]]; rewrite Dq in E; [discriminate|]. injection E as -> _. apply Na. left. auto.
    - injection E as -> E. destruct (IHa b E) as [-> Q2]; [intros I; apply Na; right; auto|intros I; apply Nb; right; auto|]. auto. }
  destruct Q as [Q1 Q2]. rewrite Q1. f_equal. apply IH; auto.
Qed.

(** Modules with different paths have different labels, if no name contains a slash. *)
Theorem labels_distinct : forall p q x, path_ok p -> path_ok q -> no_slash p -> no_slash q ->
  label_for_path p = Some x -> label_for_path q = Some x -> map n_str p = map n_str q.
Proof.
  intros p q x Pp Pq Np Nq Ep Eq. rewrite label_eq in Ep, Eq.
  destruct (sanitize (slashed p ++ [37%Z])) as [y|] eqn:Ey; [|discriminate]. injection Ep as <-.
  destruct (sanitize (slashed q ++ [37%Z])) as [z|] eqn:Ez; [|discriminate]. injection Eq as ->.
  pose proof (sanitize_inj _ _ _ (slash_ok p Pp) (slash_ok q Pq) Ey Ez) as E. apply app_inj_tail in E. apply slashed_inj; auto. tauto.
Qed.

(** With slashes they can clash: the modules /'a/b'% and /a/b%. *)
Theorem labels_clash :
  let p := [mk_name [97; 47; 98]%Z Normal] in let q := [mk_name [97]%Z Normal; mk_name [98]%Z Normal] in
  p <> q /\ path_ok p /\ path_ok q /\ exists x, label_for_path p = Some x /\ label_for_path q = Some x.
Proof.
  cbv zeta. split; [discriminate|]. split; [repeat constructor; lia|]. split; [repeat constructor; lia|]. eexists. split; reflexivity.
Qed.

(** And a module called é (UTF-8 c3 a9) overflows the buffer. *)
Theorem label_overflow : path_ok [mk_name [195; 169]%Z Normal] /\ label_for_path [mk_name [195; 169]%Z Normal] = None.
Proof. split; [repeat constructor; lia|reflexivity]. Qed.

(** /Foo/Bar2% *)
Example label_ex : label_for_path [mk_name [70; 111; 111]%Z Normal; mk_name [66; 97; 114; 50]%Z Normal] =
  Some ([95; 70; 98; 108; 101] ++ [95; 50; 102; 95] ++ [70; 111; 111] ++ [95; 50; 102; 95] ++ [66; 97; 114; 50] ++ [95; 50; 53; 95])%Z.
Proof. reflexivity. Qed.
(** Block 26 of that module, called /Foo!: _2f_Foo_21__001a *)
Example symbol_ex : symbol (repeat [] 26 ++ [[47; 70; 111; 111; 33]%Z]) 26 =
  Some [95; 50; 102; 95; 70; 111; 111; 95; 50; 49; 95; 95; 48; 48; 49; 97]%Z.
Proof. reflexivity. Qed.
