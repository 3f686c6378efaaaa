(** * Reference counts of fbld documents: lemmas. *)
From Coq Require Import ZArith List Arith Lia Bool Permutation.
From Verif Require Import FbldModel.
Import ListNotations.
Local Open Scope list_scope.
Notation length := List.length.

(** ** Outcomes *)
Definition post {A} (W : stop -> Prop) (x : out A) (P : A -> Prop) : Prop := match x with Ok a => P a | Stop w => W w end.
Lemma post_bind : forall {A B} W (x : out A) (k : A -> out B) P Q, post W x P -> (forall a, P a -> post W (k a) Q) -> post W (bind x k) Q.
Proof. intros A B W [a|w] k P Q H K; cbn in *; auto. Qed.
Lemma post_weak : forall {A} (W W' : stop -> Prop) (x : out A) (P Q : A -> Prop), post W x P -> (forall w, W w -> W' w) -> (forall a, P a -> Q a) -> post W' x Q.
Proof. intros A W W' [a|w] P Q H K L; cbn in *; auto. Qed.

(** ** Counting *)
Definition one (a : nat) (p : option nat) : nat := match p with Some b => if b =? a then 1 else 0 | None => 0 end.
Fixpoint cnt (a : nat) (l : list (option nat)) : nat := match l with [] => 0 | p :: r => one a p + cnt a r end.
Lemma cnt_app : forall a l m, cnt a (l ++ m) = cnt a l + cnt a m.
Proof. intros a l m. induction l; cbn; lia. Qed.
Lemma cnt_repeat : forall a n, cnt a (repeat None n) = 0.
Proof. intros a n. induction n; auto. Qed.
Lemma one_same : forall a, one a (Some a) = 1.
Proof. intros a. cbn. rewrite Nat.eqb_refl. auto. Qed.
Lemma cnt_in : forall a l, In (Some a) l -> 0 < cnt a l.
Proof. intros a l. induction l as [|p l IH]; intros I; [destruct I|]. cbn. destruct I as [->|I]; [rewrite one_same; lia|apply IH in I; lia]. Qed.
Lemma one_pos : forall a p, 0 < one a p -> p = Some a.
Proof. intros a [b|] H; cbn in H; [|lia]. destruct (b =? a) eqn:E; [apply Nat.eqb_eq in E; congruence|lia]. Qed.
Lemma in_cnt : forall a l, 0 < cnt a l -> In (Some a) l.
Proof. intros a l. induction l as [|p l IH]; cbn; intros H; [lia|]. destruct (Nat.eq_dec (one a p) 0) as [E|E]; [right; apply IH; lia|left; apply one_pos; lia]. Qed.
Lemma one_eq : forall a b, one a (Some b) = (if b =? a then 1 else 0).
Proof. reflexivity. Qed.

Fixpoint sum (n : nat) (F : nat -> nat) : nat := match n with O => 0 | S k => F k + sum k F end.
Lemma sum_ext : forall n F G, (forall k, k < n -> F k = G k) -> sum n F = sum n G.
Proof. induction n as [|n IH]; intros F G H; cbn; auto. rewrite H, (IH F G); auto. Qed.
Lemma sum_change : forall n F G b, b < n -> (forall c, c <> b -> F c = G c) -> sum n G + F b = sum n F + G b.
Proof.
  induction n as [|n IH]; intros F G b L H; [lia|]. cbn. destruct (Nat.eq_dec b n) as [->|N].
  - rewrite (sum_ext n G F); [lia|]. intros k K. symmetry. apply H. lia.
  - assert (b < n) as L' by lia. specialize (IH F G b L' H). rewrite (H n) by auto. lia.
Qed.
Lemma sum_le : forall n F k, k < n -> F k <= sum n F.
Proof. induction n as [|n IH]; intros F k L; [lia|]. cbn. destruct (Nat.eq_dec k n) as [->|N]; [lia|]. specialize (IH F k ltac:(lia)). lia. Qed.
Lemma sum_pos : forall n F, 0 < sum n F -> exists k, k < n /\ 0 < F k.
Proof.
  induction n as [|n IH]; intros F H; cbn in H; [lia|]. destruct (Nat.eq_dec (F n) 0) as [E|E]; [|exists n; lia].
  destruct (IH F ltac:(lia)) as [k [L K]]. exists k. lia.
Qed.

Definition kids_of (h : heap) (b : nat) : list (option nat) := match mh h b with Some n => n_kids n | None => [] end.
Definition body_of (h : heap) (e : nat) : option nat := match eh h e with Some n => e_body n | None => None end.
Definition next_of (h : heap) (e : nat) : option nat := match eh h e with Some n => e_next n | None => None end.
(** References to a markup and to an environment from others. *)
Definition mref (h : heap) (a : nat) : nat := sum (nm h) (fun b => cnt a (kids_of h b)) + sum (ne h) (fun e => one a (body_of h e)).
Definition eref (h : heap) (e : nat) : nat := sum (ne h) (fun b => one e (next_of h b)).

(** [r] and [re] count the references from elsewhere. *)
Record inv (h : heap) (r re : nat -> nat) : Prop := {
  i_m : forall a n, mh h a = Some n -> a < nm h /\ 0 < n_rc n /\ n_rc n = r a + mref h a;
  i_no : forall a, mh h a = None -> r a + mref h a = 0;
  i_e : forall e n, eh h e = Some n -> e < ne h /\ 0 < e_rc n /\ e_rc n = re e + eref h e;
  i_eno : forall e, eh h e = None -> re e + eref h e = 0;
  i_next : forall e n e', eh h e = Some n -> e_next n = Some e' -> e' < e }.

Lemma inv_ext : forall h r re r' re', inv h r re -> (forall a, r a = r' a) -> (forall e, re e = re' e) -> inv h r' re'.
Proof.
  intros h r re r' re' [A B C D E] H1 H2. constructor; auto; intros; rewrite <- ?H1, <- ?H2; auto.
Qed.

Definition ref_opt (p q : option nat) : Prop := p = q.
Definition ref_node (n n' : node) : Prop := n_tag n' = n_tag n /\ n_text n' = n_text n /\ Forall2 ref_opt (n_kids n) (n_kids n').
Definition ref_env (n n' : enode) : Prop := e_name n' = e_name n /\ e_args n' = e_args n /\ e_next n' = e_next n /\ ref_opt (e_body n) (e_body n').
(** What is there in [h'] and was in [h] is the same. *)
Record sub (h h' : heap) : Prop := {
  s_nm : nm h <= nm h'; s_ne : ne h <= ne h';
  s_m : forall a n', a < nm h -> mh h' a = Some n' -> exists n, mh h a = Some n /\ ref_node n n';
  s_e : forall e n', e < ne h -> eh h' e = Some n' -> exists n, eh h e = Some n /\ ref_env n n' }.

Lemma ref_opt_refl : forall p, ref_opt p p. Proof. reflexivity. Qed.
Lemma ref_opts_refl : forall l, Forall2 ref_opt l l. Proof. intros l. induction l; constructor; [reflexivity|auto]. Qed.
Lemma ref_node_refl : forall n, ref_node n n. Proof. intros n. repeat split; auto. apply ref_opts_refl. Qed.
Lemma ref_env_refl : forall n, ref_env n n. Proof. intros n. repeat split; reflexivity. Qed.
Lemma ref_opt_trans : forall p q t, ref_opt p q -> ref_opt q t -> ref_opt p t.
Proof. unfold ref_opt. intuition congruence. Qed.
Lemma ref_opts_trans : forall l m k, Forall2 ref_opt l m -> Forall2 ref_opt m k -> Forall2 ref_opt l k.
Proof. intros l m k A. revert k. induction A; intros k B; inversion B; subst; constructor; eauto using ref_opt_trans. Qed.
Lemma sub_refl : forall h, sub h h.
Proof. intros h. constructor; auto; intros a n' L H; exists n'; split; auto; [apply ref_node_refl|apply ref_env_refl]. Qed.
Lemma sub_trans : forall a b c, sub a b -> sub b c -> sub a c.
Proof.
  intros a b c [A1 A2 A3 A4] [B1 B2 B3 B4]. constructor; try lia.
  - intros x n L H. destruct (B3 x n ltac:(lia) H) as [n1 [H1 [E1 [E2 E3]]]]. destruct (A3 x n1 L H1) as [n0 [H0 [F1 [F2 F3]]]].
    exists n0. split; auto. repeat split; try congruence. eapply ref_opts_trans; eauto.
  - intros x n L H. destruct (B4 x n ltac:(lia) H) as [n1 [H1 [E1 [E2 [E3 E4]]]]]. destruct (A4 x n1 L H1) as [n0 [H0 [F1 [F2 [F3 F4]]]]].
    exists n0. split; auto. repeat split; try congruence; eapply ref_opt_trans; eauto.
Qed.

(** ** How references change *)
Lemma kids_other : forall h b x c, c <> b -> kids_of (set_node h b x) c = kids_of h c.
Proof. intros h b x c N. unfold kids_of. cbn. unfold upd. destruct (Nat.eqb_spec c b); [contradiction|auto]. Qed.
Lemma mref_set_node : forall h b x a, b < nm h ->
  mref (set_node h b x) a + cnt a (kids_of h b) = mref h a + cnt a (match x with Some n => n_kids n | None => [] end).
Proof.
  intros h b x a L. unfold mref. cbn [nm ne set_node].
  pose proof (sum_change (nm h) (fun c => cnt a (kids_of h c)) (fun c => cnt a (kids_of (set_node h b x) c)) b L) as E.
  assert (forall c, c <> b -> cnt a (kids_of h c) = cnt a (kids_of (set_node h b x) c)) as K by (intros c N; rewrite kids_other; auto).
  specialize (E K). cbn beta in E.
  assert (kids_of (set_node h b x) b = match x with Some n => n_kids n | None => [] end) as Q.
  { unfold kids_of, set_node, upd. cbn. rewrite Nat.eqb_refl. destruct x; auto. }
  rewrite Q in E.
  assert (sum (ne h) (fun e => one a (body_of (set_node h b x) e)) = sum (ne h) (fun e => one a (body_of h e))) as Z by (apply sum_ext; auto).
  lia.
Qed.
Lemma eref_set_node : forall h b x e, eref (set_node h b x) e = eref h e.
Proof. intros. unfold eref. cbn. apply sum_ext. auto. Qed.
Lemma mref_set_env : forall h b x a, b < ne h ->
  mref (set_env h b x) a + one a (body_of h b) = mref h a + one a (match x with Some n => e_body n | None => None end).
Proof.
  intros h b x a L. unfold mref. cbn [nm ne set_env].
  pose proof (sum_change (ne h) (fun c => one a (body_of h c)) (fun c => one a (body_of (set_env h b x) c)) b L) as E.
  assert (forall c, c <> b -> one a (body_of h c) = one a (body_of (set_env h b x) c)) as K.
  { intros c N. unfold body_of, set_env, upd. cbn. destruct (Nat.eqb_spec c b); [contradiction|auto]. }
  specialize (E K). cbn beta in E.
  assert (body_of (set_env h b x) b = match x with Some n => e_body n | None => None end) as Q.
  { unfold body_of, set_env, upd. cbn. rewrite Nat.eqb_refl. auto. }
  rewrite Q in E.
  assert (sum (nm h) (fun e => cnt a (kids_of (set_env h b x) e)) = sum (nm h) (fun e => cnt a (kids_of h e))) as Z by (apply sum_ext; auto).
  lia.
Qed.
Lemma eref_set_env : forall h b x a, b < ne h ->
  eref (set_env h b x) a + one a (next_of h b) = eref h a + one a (match x with Some n => e_next n | None => None end).
Proof.
  intros h b x a L. unfold eref. cbn [nm ne set_env].
  pose proof (sum_change (ne h) (fun c => one a (next_of h c)) (fun c => one a (next_of (set_env h b x) c)) b L) as E.
  assert (forall c, c <> b -> one a (next_of h c) = one a (next_of (set_env h b x) c)) as K.
  { intros c N. unfold next_of, set_env, upd. cbn. destruct (Nat.eqb_spec c b); [contradiction|auto]. }
  specialize (E K). cbn beta in E.
  assert (next_of (set_env h b x) b = match x with Some n => e_next n | None => None end) as Q.
  { unfold next_of, set_env, upd. cbn. rewrite Nat.eqb_refl. auto. }
  rewrite Q in E. lia.
Qed.
Lemma mref_new_node : forall h x a, mref (fst (new_node h x)) a = mref h a + cnt a (n_kids x).
Proof.
  intros h x a. unfold mref, new_node. cbn [fst nm ne sum].
  rewrite (sum_ext (nm h) _ (fun b => cnt a (kids_of h b))).
  2:{ intros k L. unfold kids_of, upd. cbn. destruct (Nat.eqb_spec k (nm h)); [lia|auto]. }
  rewrite (sum_ext (ne h) _ (fun b => one a (body_of h b))) by auto.
  unfold kids_of at 1. cbn. unfold upd. rewrite Nat.eqb_refl. lia.
Qed.
Lemma eref_new_node : forall h x a, eref (fst (new_node h x)) a = eref h a.
Proof. intros. unfold eref. cbn. apply sum_ext. auto. Qed.
Lemma mref_new_env : forall h x a, mref (fst (new_env h x)) a = mref h a + one a (e_body x).
Proof.
  intros h x a. unfold mref, new_env. cbn [fst nm ne sum].
  rewrite (sum_ext (ne h) _ (fun b => one a (body_of h b))).
  2:{ intros k L. unfold body_of, upd. cbn. destruct (Nat.eqb_spec k (ne h)); [lia|auto]. }
  rewrite (sum_ext (nm h) _ (fun b => cnt a (kids_of h b))) by auto.
  unfold body_of at 1. cbn. unfold upd. rewrite Nat.eqb_refl. lia.
Qed.
Lemma eref_new_env : forall h x a, eref (fst (new_env h x)) a = eref h a + one a (e_next x).
Proof.
  intros h x a. unfold eref, new_env. cbn [fst nm ne sum].
  rewrite (sum_ext (ne h) _ (fun b => one a (next_of h b))).
  2:{ intros k L. unfold next_of, upd. cbn. destruct (Nat.eqb_spec k (ne h)); [lia|auto]. }
  unfold next_of at 1. cbn. unfold upd. rewrite Nat.eqb_refl. lia.
Qed.

(** ** Who is there *)
Lemma live_r : forall h r re a, inv h r re -> 0 < r a -> exists n, mh h a = Some n.
Proof. intros h r re a I L. destruct (mh h a) eqn:E; eauto. pose proof (i_no _ _ _ I a E). lia. Qed.
Lemma elive_r : forall h r re e, inv h r re -> 0 < re e -> exists n, eh h e = Some n.
Proof. intros h r re e I L. destruct (eh h e) eqn:E; eauto. pose proof (i_eno _ _ _ I e E). lia. Qed.
Lemma live_kid : forall h r re b n a, inv h r re -> mh h b = Some n -> In (Some a) (n_kids n) -> exists n', mh h a = Some n'.
Proof.
  intros h r re b n a I H K. destruct (mh h a) eqn:E; eauto. exfalso. pose proof (i_no _ _ _ I a E) as Z.
  destruct (i_m _ _ _ I b n H) as [L _]. unfold mref in Z. pose proof (sum_le (nm h) (fun b => cnt a (kids_of h b)) b L) as Q. cbn in Q.
  unfold kids_of at 1 in Q. rewrite H in Q. pose proof (cnt_in a _ K). lia.
Qed.
Lemma live_body : forall h r re e n a, inv h r re -> eh h e = Some n -> e_body n = Some a -> exists n', mh h a = Some n'.
Proof.
  intros h r re b n a I H K. destruct (mh h a) eqn:E; eauto. exfalso. pose proof (i_no _ _ _ I a E) as Z.
  destruct (i_e _ _ _ I b n H) as [L _]. unfold mref in Z. pose proof (sum_le (ne h) (fun b => one a (body_of h b)) b L) as Q. cbn beta in Q.
  unfold body_of at 1 in Q. rewrite H, K, one_same in Q. lia.
Qed.
Lemma live_next : forall h r re e n a, inv h r re -> eh h e = Some n -> e_next n = Some a -> exists n', eh h a = Some n'.
Proof.
  intros h r re b n a I H K. destruct (eh h a) eqn:E; eauto. exfalso. pose proof (i_eno _ _ _ I a E) as Z.
  destruct (i_e _ _ _ I b n H) as [L _]. unfold eref in Z. pose proof (sum_le (ne h) (fun b => one a (next_of h b)) b L) as Q. cbn beta in Q.
  unfold next_of at 1 in Q. rewrite H, K, one_same in Q. lia.
Qed.

(** ** Heap operations *)
Definition add (p : option nat) (r : nat -> nat) : nat -> nat := fun a => one a p + r a.
Definition adds (l : list (option nat)) (r : nat -> nat) : nat -> nat := fun a => cnt a l + r a.
Definition live (h : heap) (p : option nat) : Prop := match p with Some a => exists n, mh h a = Some n | None => True end.
Definition elive (h : heap) (p : option nat) : Prop := match p with Some e => exists n, eh h e = Some n | None => True end.
(** The same nodes with the same contents. *)
Definition alike (h h' : heap) : Prop :=
  nm h' = nm h /\ ne h' = ne h /\
  (forall a n, mh h a = Some n -> exists n', mh h' a = Some n' /\ n_tag n' = n_tag n /\ n_text n' = n_text n /\ n_kids n' = n_kids n) /\
  (forall e n, eh h e = Some n -> exists n', eh h' e = Some n' /\ e_name n' = e_name n /\ e_args n' = e_args n /\ e_next n' = e_next n /\ e_body n' = e_body n).

Definition never (w : stop) : Prop := False.
Definition timeout (w : stop) : Prop := w = Timeout.

Lemma sub_set_rc : forall h a n k, mh h a = Some n -> sub h (set_node h a (Some (with_rc n k))).
Proof.
  intros h a n k H. constructor; auto.
  - intros b n' L K. cbn in K. unfold upd in K. destruct (Nat.eqb_spec b a) as [->|N]; [|exists n'; split; auto; apply ref_node_refl].
    exists n. split; auto. injection K as <-. repeat split; auto. apply ref_opts_refl.
  - intros b n' L K. exists n'. split; auto. apply ref_env_refl.
Qed.
Lemma sub_set_erc : forall h a n k, eh h a = Some n -> sub h (set_env h a (Some (with_erc n k))).
Proof.
  intros h a n k H. constructor; auto.
  - intros b n' L K. exists n'. split; auto. apply ref_node_refl.
  - intros b n' L K. cbn in K. unfold upd in K. destruct (Nat.eqb_spec b a) as [->|N]; [|exists n'; split; auto; apply ref_env_refl].
    exists n. split; auto. injection K as <-. repeat split; auto.
Qed.
Lemma sub_del : forall h a, sub h (set_node h a None).
Proof.
  intros h a. constructor; auto.
  - intros b n' L K. cbn in K. unfold upd in K. destruct (b =? a); [discriminate|]. exists n'. split; auto. apply ref_node_refl.
  - intros b n' L K. exists n'. split; auto. apply ref_env_refl.
Qed.
Lemma sub_edel : forall h a, sub h (set_env h a None).
Proof.
  intros h a. constructor; auto.
  - intros b n' L K. exists n'. split; auto. apply ref_node_refl.
  - intros b n' L K. cbn in K. unfold upd in K. destruct (b =? a); [discriminate|]. exists n'. split; auto. apply ref_env_refl.
Qed.
Lemma sub_new : forall h x, sub h (fst (new_node h x)).
Proof.
  intros h x. constructor; cbn; auto.
  - intros b n' L K. unfold upd in K. destruct (Nat.eqb_spec b (nm h)); [lia|]. exists n'. split; auto. apply ref_node_refl.
  - intros b n' L K. exists n'. split; auto. apply ref_env_refl.
Qed.
Lemma sub_enew : forall h x, sub h (fst (new_env h x)).
Proof.
  intros h x. constructor; cbn; auto.
  - intros b n' L K. exists n'. split; auto. apply ref_node_refl.
  - intros b n' L K. unfold upd in K. destruct (Nat.eqb_spec b (ne h)); [lia|]. exists n'. split; auto. apply ref_env_refl.
Qed.

Lemma inv_set_rc : forall h r re a n k r', inv h r re -> mh h a = Some n -> 0 < k ->
  (forall b, b <> a -> r' b = r b) -> k + r a = n_rc n + r' a -> inv (set_node h a (Some (with_rc n k))) r' re.
Proof.
  intros h r re a n k r' I H K R1 R2. destruct (i_m _ _ _ I a n H) as [L [P Q]].
  assert (M : forall b, mref (set_node h a (Some (with_rc n k))) b = mref h b).
  { intros b. pose proof (mref_set_node h a (Some (with_rc n k)) b L) as E. unfold kids_of in E. rewrite H in E. cbn [n_kids with_rc] in E. lia. }
  constructor.
  - intros b m E. cbn in E. unfold upd in E. rewrite M. destruct (Nat.eqb_spec b a) as [->|N].
    + injection E as <-. cbn [n_rc with_rc]. split; [exact L|split; [exact K|lia]].
    + rewrite R1 by auto. apply (i_m _ _ _ I b m E).
  - intros b E. cbn in E. unfold upd in E. rewrite M. destruct (Nat.eqb_spec b a) as [Eb|N]; [discriminate|]. rewrite R1 by auto. apply (i_no _ _ _ I b E).
  - intros e m E. rewrite eref_set_node. apply (i_e _ _ _ I e m E).
  - intros e E. rewrite eref_set_node. apply (i_eno _ _ _ I e E).
  - apply (i_next _ _ _ I).
Qed.

Lemma copy_ok : forall h r re p, inv h r re -> live h p ->
  post never (copy h p) (fun h' => inv h' (add p r) re /\ sub h h' /\ alike h h').
Proof.
  intros h r re [a|] I L; cbn.
  - destruct L as [n H]. unfold node_at. rewrite H. cbn. split; [|split; [apply sub_set_rc; auto|]].
    + apply inv_set_rc with r; auto; [lia| |]; unfold add; intros.
      * rewrite one_eq. destruct (Nat.eqb_spec a b); [congruence|auto].
      * rewrite one_same. lia.
    + unfold alike. cbn. split; [auto|split; [auto|split]].
      * intros b m E. unfold upd. destruct (Nat.eqb_spec b a) as [->|N]; [|eauto 10]. rewrite E in H. injection H as ->. eexists. split; [reflexivity|]. auto.
      * intros; eauto 10.
  - split; [eapply inv_ext; eauto|split; [apply sub_refl|]]. unfold alike. split; [auto|split; [auto|split; intros; eauto 10]].
Qed.

Lemma copy_env_ok : forall h r re p, inv h r re -> elive h p ->
  post never (copy_env h p) (fun h' => inv h' r (add p re) /\ sub h h' /\ alike h h').
Proof.
  intros h r re [a|] I L; cbn.
  - destruct L as [n H]. unfold env_at. rewrite H. cbn. destruct (i_e _ _ _ I a n H) as [L [P Q]].
    split; [|split; [apply sub_set_erc; auto|]].
    + assert (M : forall b, mref (set_env h a (Some (with_erc n (S (e_rc n))))) b = mref h b).
      { intros b. pose proof (mref_set_env h a (Some (with_erc n (S (e_rc n)))) b L) as E. unfold body_of in E. rewrite H in E. cbn [e_body with_erc] in E. lia. }
      assert (M' : forall b, eref (set_env h a (Some (with_erc n (S (e_rc n))))) b = eref h b).
      { intros b. pose proof (eref_set_env h a (Some (with_erc n (S (e_rc n)))) b L) as E. unfold next_of in E. rewrite H in E. cbn [e_next with_erc] in E. lia. }
      constructor; intros; rewrite ?M, ?M'.
      * apply (i_m _ _ _ I _ _ H0).
      * apply (i_no _ _ _ I _ H0).
      * cbn in H0. unfold upd in H0. unfold add. rewrite one_eq. destruct (Nat.eqb_spec e a) as [->|N].
        -- injection H0 as <-. cbn [e_rc with_erc]. rewrite Nat.eqb_refl. split; [exact L|lia].
        -- destruct (Nat.eqb_spec a e); [congruence|]. apply (i_e _ _ _ I _ _ H0).
      * cbn in H0. unfold upd in H0. unfold add. rewrite one_eq. destruct (Nat.eqb_spec e a) as [Eb|N]; [discriminate|].
        destruct (Nat.eqb_spec a e); [congruence|]. apply (i_eno _ _ _ I _ H0).
      * cbn in H0. unfold upd in H0. destruct (Nat.eqb_spec e a) as [->|N].
        -- injection H0 as <-. cbn in H1. eapply (i_next _ _ _ I); eauto.
        -- eapply (i_next _ _ _ I); eauto.
    + unfold alike. cbn. split; [auto|split; [auto|split]]; [intros; eauto 10|].
      intros b m E. unfold upd. destruct (Nat.eqb_spec b a) as [->|N]; [|eauto 10]. rewrite E in H. injection H as ->. eexists. split; [reflexivity|]. auto.
  - split; [eapply inv_ext; eauto|split; [apply sub_refl|]]. unfold alike. split; [auto|split; [auto|split; intros; eauto 10]].
Qed.

Lemma alike_live : forall h h' p, alike h h' -> live h p -> live h' p.
Proof. intros h h' [a|] [_ [_ [A _]]] L; auto. destruct L as [n H]. destruct (A a n H) as [n' [H' _]]. exists n'. auto. Qed.
Lemma alike_elive : forall h h' p, alike h h' -> elive h p -> elive h' p.
Proof. intros h h' [a|] [_ [_ [_ A]]] L; auto. destruct L as [n H]. destruct (A a n H) as [n' [H' _]]. exists n'. auto. Qed.
Lemma alike_refl : forall h, alike h h.
Proof. intros h. unfold alike. split; [auto|split; [auto|split; intros; eauto 10]]. Qed.
Lemma alike_trans : forall a b c, alike a b -> alike b c -> alike a c.
Proof.
  intros a b c [A1 [A2 [A3 A4]]] [B1 [B2 [B3 B4]]]. unfold alike. split; [congruence|split; [congruence|split]].
  - intros x n H. destruct (A3 x n H) as [n1 [H1 [P1 [P2 P3]]]]. destruct (B3 x n1 H1) as [n2 [H2 [Q1 [Q2 Q3]]]]. exists n2. repeat split; auto; congruence.
  - intros x n H. destruct (A4 x n H) as [n1 [H1 [P1 [P2 [P3 P4]]]]]. destruct (B4 x n1 H1) as [n2 [H2 [Q1 [Q2 [Q3 Q4]]]]]. exists n2. repeat split; auto; congruence.
Qed.

Lemma copy_all_ok : forall ps h r re, inv h r re -> (forall p, In p ps -> live h p) ->
  post never (copy_all h ps) (fun h' => inv h' (adds ps r) re /\ sub h h' /\ alike h h').
Proof.
  unfold copy_all.
  assert (K : forall ps (x : out heap) h0 r re, post never x (fun h => inv h r re /\ sub h0 h /\ alike h0 h) -> (forall p, In p ps -> live h0 p) ->
    post never (fold_left (fun x p => bind x (fun h => copy h p)) ps x) (fun h' => inv h' (adds ps r) re /\ sub h0 h' /\ alike h0 h')).
  { induction ps as [|p ps IH]; intros x h0 r re P L; cbn.
    - eapply post_weak; [exact P|auto|]. intros h [I [B A]]. split; [|auto]. eapply inv_ext; [exact I| |]; auto.
    - eapply post_weak; [apply (IH _ h0 (add p r) re)|auto|].
      + eapply post_bind; [exact P|]. intros h [I [B A]]. eapply post_weak; [apply copy_ok; eauto|auto|].
        * eapply alike_live; eauto. apply L. left. auto.
        * intros h' [I' [B' A']]. split; auto. split; [eapply sub_trans; eauto|eapply alike_trans; eauto].
      + intros q Q. apply L. right. auto.
      + intros h [I [B A]]. split; auto. eapply inv_ext; [exact I| |]; auto. intros a. unfold adds, add. cbn. lia. }
  intros ps h r re I L. apply K; auto. cbn. split; [auto|split; [apply sub_refl|apply alike_refl]].
Qed.

Lemma free_list_ok : forall f ws h r re, inv h (adds ws r) re ->
  post timeout (free_list f h ws) (fun h' => inv h' r re /\ sub h h' /\ nm h' = nm h /\ ne h' = ne h /\ (forall e, eh h' e = eh h e)).
Proof.
  induction f as [|f IH]; intros ws h r re I; cbn; [reflexivity|].
  destruct ws as [|[a|] ws].
  - cbn. split; [|split; [apply sub_refl|auto]]. eapply inv_ext; [exact I| |]; auto.
  - destruct (live_r _ _ _ a I) as [n H]; [unfold adds; cbn; rewrite Nat.eqb_refl; lia|]. unfold node_at. rewrite H. cbn.
    destruct (i_m _ _ _ I a n H) as [L [P Q]]. unfold adds in Q. cbn [cnt] in Q. rewrite one_same in Q.
    destruct (n_rc n) as [|[|k]] eqn:RC; [lia| |].
    + assert (I' : inv (set_node h a None) (adds (n_kids n ++ ws) r) re).
      { assert (M : forall b, mref (set_node h a None) b + cnt b (n_kids n) = mref h b).
        { intros b. pose proof (mref_set_node h a None b L) as E. unfold kids_of in E. rewrite H in E. cbn [cnt] in E. lia. }
        constructor.
        - intros b m E. cbn in E. unfold upd in E. destruct (Nat.eqb_spec b a) as [Eb|N]; [discriminate|].
          destruct (i_m _ _ _ I b m E) as [L' [P' Q']]. split; [exact L'|split; [exact P'|]]. unfold adds in *. cbn [cnt] in Q'. rewrite one_eq in Q'.
          destruct (Nat.eqb_spec a b); [congruence|]. rewrite cnt_app. specialize (M b). lia.
        - intros b E. cbn in E. unfold upd in E. specialize (M b). unfold adds. rewrite cnt_app. destruct (Nat.eqb_spec b a) as [->|N]; [lia|].
          pose proof (i_no _ _ _ I b E) as Z. unfold adds in Z. cbn [cnt] in Z. lia.
        - intros e m E. rewrite eref_set_node. apply (i_e _ _ _ I e m E).
        - intros e E. rewrite eref_set_node. apply (i_eno _ _ _ I e E).
        - apply (i_next _ _ _ I). }
      eapply post_weak; [apply (IH _ _ _ _ I')|auto|]. intros h' [J [B [N1 [N2 N3]]]].
      split; [exact J|split; [eapply sub_trans; [apply sub_del|exact B]|]]. cbn in N1, N2. split; auto.
    + assert (I' : inv (set_node h a (Some (with_rc n (S k)))) (adds ws r) re).
      { apply inv_set_rc with (adds (Some a :: ws) r); auto; [lia| |]; unfold adds; cbn [cnt]; intros.
        - rewrite one_eq. destruct (Nat.eqb_spec a b); [congruence|lia].
        - rewrite one_same. lia. }
      eapply post_weak; [apply (IH _ _ _ _ I')|auto|]. intros h' [J [B [N1 [N2 N3]]]].
      split; [exact J|split; [eapply sub_trans; [apply sub_set_rc; eauto|exact B]|]]. cbn in N1, N2. split; auto.
  - apply IH. eapply inv_ext; [exact I| |]; auto.
Qed.
Lemma free_ok : forall f p h r re, inv h (add p r) re ->
  post timeout (free f h p) (fun h' => inv h' r re /\ sub h h' /\ nm h' = nm h /\ ne h' = ne h /\ (forall e, eh h' e = eh h e)).
Proof. intros. apply free_list_ok. eapply inv_ext; [eassumption| |]; auto. intros a. unfold add, adds. cbn. lia. Qed.

Lemma free_env_ok : forall f p h r re, inv h r (add p re) ->
  post timeout (free_env f h p) (fun h' => inv h' r re /\ sub h h').
Proof.
  induction f as [|f IH]; intros p h r re I; cbn; [reflexivity|].
  destruct p as [e|].
  - destruct (elive_r _ _ _ e I) as [n H]; [unfold add; rewrite one_same; lia|]. unfold env_at. rewrite H. cbn [bind].
    destruct (i_e _ _ _ I e n H) as [L [P Q]]. unfold add in Q. rewrite one_same in Q.
    destruct (e_rc n) as [|[|k]] eqn:RC; [lia| |].
    + assert (I' : inv (set_env h e None) (add (e_body n) r) (add (e_next n) re)).
      { assert (M : forall b, mref (set_env h e None) b + one b (e_body n) = mref h b).
        { intros b. pose proof (mref_set_env h e None b L) as E. unfold body_of in E. rewrite H in E. cbn [one] in E. lia. }
        assert (M' : forall b, eref (set_env h e None) b + one b (e_next n) = eref h b).
        { intros b. pose proof (eref_set_env h e None b L) as E. unfold next_of in E. rewrite H in E. cbn [one] in E. lia. }
        constructor.
        - intros b m E. destruct (i_m _ _ _ I b m E) as [L' [P' Q']]. specialize (M b). unfold add. cbn [nm set_env]. lia.
        - intros b E. pose proof (i_no _ _ _ I b E). specialize (M b). unfold add. lia.
        - intros b m E. cbn in E. unfold upd in E. destruct (Nat.eqb_spec b e) as [Eb|N]; [discriminate|].
          destruct (i_e _ _ _ I b m E) as [L' [P' Q']]. split; [exact L'|split; [exact P'|]]. unfold add in *. rewrite one_eq in Q'.
          destruct (Nat.eqb_spec e b); [congruence|]. specialize (M' b). lia.
        - intros b E. cbn in E. unfold upd in E. specialize (M' b). unfold add. destruct (Nat.eqb_spec b e) as [->|N]; [lia|].
          pose proof (i_eno _ _ _ I b E) as Z. unfold add in Z. lia.
        - intros b m e' E. cbn in E. unfold upd in E. destruct (b =? e); [discriminate|]. apply (i_next _ _ _ I b m e' E). }
      eapply post_bind; [apply free_ok; exact I'|]. intros h1 [I1 [B1 _]]. eapply post_weak; [apply (IH _ _ _ _ I1)|auto|].
      intros h' [J B]. split; [exact J|]. eapply sub_trans; [apply sub_edel|]. eapply sub_trans; eauto.
    + cbn. split; [|apply sub_set_erc; auto].
      assert (M : forall b, mref (set_env h e (Some (with_erc n (S k)))) b = mref h b).
      { intros b. pose proof (mref_set_env h e (Some (with_erc n (S k))) b L) as E. unfold body_of in E. rewrite H in E. cbn [e_body with_erc] in E. lia. }
      assert (M' : forall b, eref (set_env h e (Some (with_erc n (S k)))) b = eref h b).
      { intros b. pose proof (eref_set_env h e (Some (with_erc n (S k))) b L) as E. unfold next_of in E. rewrite H in E. cbn [e_next with_erc] in E. lia. }
      constructor; intros; rewrite ?M, ?M'.
      * apply (i_m _ _ _ I _ _ H0).
      * apply (i_no _ _ _ I _ H0).
      * cbn in H0. unfold upd in H0. destruct (Nat.eqb_spec e0 e) as [->|N].
        -- injection H0 as <-. cbn [e_rc with_erc]. split; [exact L|lia].
        -- destruct (i_e _ _ _ I _ _ H0) as [L' [P' Q']]. split; [exact L'|split; [exact P'|]]. unfold add in Q'. rewrite one_eq in Q'.
           destruct (Nat.eqb_spec e e0); [congruence|]. exact Q'.
      * cbn in H0. unfold upd in H0. destruct (Nat.eqb_spec e0 e) as [Eb|N]; [discriminate|].
        pose proof (i_eno _ _ _ I _ H0) as Z. unfold add in Z. lia.
      * cbn in H0. unfold upd in H0. destruct (Nat.eqb_spec e0 e) as [->|N].
        -- injection H0 as <-. cbn in H1. eapply (i_next _ _ _ I); eauto.
        -- eapply (i_next _ _ _ I); eauto.
  - split; [eapply inv_ext; eauto|apply sub_refl].
Qed.

Lemma new_node_ok : forall h r re x, inv h (adds (n_kids x) r) re -> n_rc x = 1 ->
  inv (fst (new_node h x)) (add (Some (nm h)) r) re.
Proof.
  intros h r re x I RC.
  assert (Z : mh h (nm h) = None). { destruct (mh h (nm h)) eqn:E; auto. destruct (i_m _ _ _ I _ _ E). lia. }
  pose proof (i_no _ _ _ I _ Z) as Z0. unfold adds in Z0.
  constructor; intros; rewrite ?mref_new_node, ?eref_new_node.
  - cbn in H. unfold upd in H. unfold add. rewrite one_eq. destruct (Nat.eqb_spec a (nm h)) as [Ea|N].
    + subst a. injection H as <-. rewrite Nat.eqb_refl. cbn [nm new_node fst]. lia.
    + destruct (Nat.eqb_spec (nm h) a); [congruence|]. destruct (i_m _ _ _ I _ _ H) as [L [P Q]]. unfold adds in Q. cbn [nm new_node fst]. lia.
  - cbn in H. unfold upd in H. unfold add. rewrite one_eq. destruct (Nat.eqb_spec a (nm h)) as [Ea|N]; [discriminate|].
    destruct (Nat.eqb_spec (nm h) a); [congruence|]. pose proof (i_no _ _ _ I _ H) as Q. unfold adds in Q. lia.
  - apply (i_e _ _ _ I _ _ H).
  - apply (i_eno _ _ _ I _ H).
  - eapply (i_next _ _ _ I); eauto.
Qed.
Lemma new_env_ok : forall h r re x, inv h (add (e_body x) r) (add (e_next x) re) -> e_rc x = 1 ->
  inv (fst (new_env h x)) r (add (Some (ne h)) re).
Proof.
  intros h r re x I RC.
  assert (Z : eh h (ne h) = None). { destruct (eh h (ne h)) eqn:E; auto. destruct (i_e _ _ _ I _ _ E). lia. }
  pose proof (i_eno _ _ _ I _ Z) as Z0. unfold add in Z0.
  constructor; intros; rewrite ?mref_new_env, ?eref_new_env.
  - destruct (i_m _ _ _ I _ _ H) as [L [P Q]]. unfold add in Q. cbn [nm new_env fst]. lia.
  - pose proof (i_no _ _ _ I _ H) as Q. unfold add in Q. lia.
  - cbn in H. unfold upd in H. unfold add. rewrite one_eq. destruct (Nat.eqb_spec e (ne h)) as [Ea|N].
    + subst e. injection H as <-. rewrite Nat.eqb_refl. cbn [ne new_env fst]. lia.
    + destruct (Nat.eqb_spec (ne h) e); [congruence|]. destruct (i_e _ _ _ I _ _ H) as [L [P Q]]. unfold add in Q. cbn [ne new_env fst]. lia.
  - cbn in H. unfold upd in H. unfold add. rewrite one_eq. destruct (Nat.eqb_spec e (ne h)) as [Ea|N]; [discriminate|].
    destruct (Nat.eqb_spec (ne h) e); [congruence|]. pose proof (i_eno _ _ _ I _ H) as Q. unfold add in Q. lia.
  - cbn in H. unfold upd in H. destruct (Nat.eqb_spec e (ne h)) as [Ea|N].
    + subst e. injection H as <-. destruct (elive_r _ _ _ e' I) as [n' H']; [unfold add; rewrite H0, one_same; lia|]. destruct (i_e _ _ _ I _ _ H'). lia.
    + eapply (i_next _ _ _ I); eauto.
Qed.

(** ** Reading *)
Definition buf_ok (b : option buf) : Prop :=
  match b with Some b => length (b_text b) + 1 <= b_alloc b /\ (b_cap b = 0 \/ length (b_text b) + b_cap b <= b_alloc b) | None => True end.
Definition reading (w : stop) : Prop := w = Timeout \/ w = AssertFail.

Lemma text_acc_ok : forall f h r re, inv h r re -> forall p b, live h p -> buf_ok b ->
  post reading (text_acc f h p b) (fun x => match x with Some b' => buf_ok b' | None => True end).
Proof.
  induction f as [|f IH]; intros h r re I p b L B; cbn; [left; auto|].
  destruct p as [a|]; [|exact Logic.I]. destruct L as [n H]. unfold node_at. rewrite H. cbn.
  destruct (n_tag n); [|exact Logic.I|].
  - destruct b as [b|]; [|cbn; lia]. cbn in B. destruct B as [B1 B2].
    eapply post_bind with (P := fun b' => b_text b' = b_text b /\ length (b_text b') + length (n_text n) + 1 <= b_alloc b' /\
        length (b_text b') + b_cap b' <= b_alloc b' /\ length (n_text n) < b_cap b').
    + destruct (Nat.leb_spec (b_cap b) (length (n_text n))) as [Q|Q]; cbn [post].
      * cbv zeta. match goal with |- post _ (if ?c then _ else _) _ => destruct c eqn:E end; cbn [post b_text b_alloc b_cap]; [|right; auto].
        apply Nat.ltb_lt in E. split; auto. lia.
      * split; auto. lia.
    + intros b' [T [B3 [B4 B5]]].
      destruct (Nat.leb_spec (length (b_text b') + length (n_text n) + 1) (b_alloc b')) as [E|E].
      2:{ lia. }
      rewrite T in *. assert (Q : length (b_text b) + length (n_text n) + 1 <= b_alloc b') by lia. apply Nat.leb_le in Q. rewrite Q.
      cbn. rewrite app_length. lia.
  - assert (LK : forall k, In k (n_kids n) -> live h k).
    { intros [k|] Ik; cbn; auto. eapply live_kid; eauto. }
    revert b B. induction (n_kids n) as [|k ks IHk]; intros b B; [exact B|]. cbn. eapply post_bind; [eapply IH; eauto; apply LK; left; auto|].
    intros [b'|] B'; [|exact Logic.I]. apply IHk; auto. intros q Q. apply LK. right. auto.
Qed.
Lemma text_of_ok : forall f h r re p, inv h r re -> live h p -> post reading (text_of f h p) (fun _ => True).
Proof.
  intros f h r re p I L. unfold text_of. eapply post_bind; [eapply text_acc_ok; eauto; exact Logic.I|]. intros [[b|]|] _; exact Logic.I.
Qed.

Lemma head_of_ok : forall f h r re, inv h r re -> forall p, live h p -> post timeout (head_of f h p) (fun _ => True).
Proof.
  induction f as [|f IH]; intros h r re I p L; cbn; [reflexivity|].
  destruct p as [a|]; [|exact Logic.I]. destruct L as [n H]. unfold node_at. rewrite H. cbn.
  destruct (n_tag n); [exact Logic.I|exact Logic.I|].
  assert (LK : forall k, In k (n_kids n) -> live h k).
  { intros [k|] Ik; cbn; auto. eapply live_kid; eauto. }
  induction (n_kids n) as [|k ks IHk]; [exact Logic.I|]. cbn. eapply post_bind; [eapply IH; eauto; apply LK; left; auto|].
  intros [[c|]|] _; try exact Logic.I. apply IHk; auto. intros q Q. apply LK. right. auto.
Qed.

Lemma find_env_ok : forall f h r re, inv h r re -> forall p x, elive h p ->
  post timeout (find_env f h p x) (fun y => match y with Some (e, n) => eh h e = Some n | None => True end).
Proof.
  induction f as [|f IH]; intros h r re I p x L; cbn; [reflexivity|].
  destruct p as [e|]; [|exact Logic.I]. destruct L as [n H]. unfold env_at. rewrite H. cbn. destruct (text_eqb x (e_name n)); [exact H|].
  eapply IH; eauto. destruct (e_next n) as [e'|] eqn:E; cbn; auto. eapply live_next; eauto.
Qed.

(** The nodes of [h] with their contents. *)
Definition keep (h h' : heap) : Prop :=
  (forall a n, mh h a = Some n -> exists n', mh h' a = Some n' /\ n_tag n' = n_tag n /\ n_text n' = n_text n /\ n_kids n' = n_kids n) /\
  (forall e n, eh h e = Some n -> exists n', eh h' e = Some n' /\ e_name n' = e_name n /\ e_args n' = e_args n /\ e_next n' = e_next n /\ e_body n' = e_body n).
Lemma keep_refl : forall h, keep h h. Proof. intros h. split; intros; eauto 10. Qed.
Lemma keep_trans : forall a b c, keep a b -> keep b c -> keep a c.
Proof.
  intros a b c [A1 A2] [B1 B2]. split.
  - intros x n H. destruct (A1 x n H) as [n1 [H1 [P1 [P2 P3]]]]. destruct (B1 x n1 H1) as [n2 [H2 [Q1 [Q2 Q3]]]]. exists n2. repeat split; auto; congruence.
  - intros x n H. destruct (A2 x n H) as [n1 [H1 [P1 [P2 [P3 P4]]]]]. destruct (B2 x n1 H1) as [n2 [H2 [Q1 [Q2 [Q3 Q4]]]]]. exists n2. repeat split; auto; congruence.
Qed.
Lemma alike_keep : forall h h', alike h h' -> keep h h'.
Proof. intros h h' [_ [_ K]]. exact K. Qed.
Lemma keep_new : forall h r re x, inv h r re -> keep h (fst (new_node h x)).
Proof.
  intros h r re x I. split; intros a n H; exists n; split; auto. cbn. unfold upd. destruct (Nat.eqb_spec a (nm h)) as [E|]; auto.
  destruct (i_m _ _ _ I _ _ H). lia.
Qed.
Lemma keep_live : forall h h' p, keep h h' -> live h p -> live h' p.
Proof. intros h h' [a|] [A _] L; auto. destruct L as [n H]. destruct (A a n H) as [n' [H' _]]. exists n'. auto. Qed.

Lemma head_keep : forall f h h' p x, keep h h' -> head_of f h p = Ok x -> head_of f h' p = Ok x.
Proof.
  induction f as [|f IH]; intros h h' p x K E; cbn in *; [discriminate|].
  destruct p as [a|]; auto. unfold node_at in *. destruct (mh h a) as [n|] eqn:H; cbn in E; [|discriminate].
  destruct K as [K1 K2]. destruct (K1 a n H) as [n' [H' [T1 [T2 T3]]]]. rewrite H'. cbn. rewrite T1, T2, T3. destruct (n_tag n); auto.
  clear T3. revert E. induction (n_kids n) as [|k ks IHk]; auto. cbn. intros E. destruct (head_of f h k) as [y|] eqn:Ek; cbn in E; [|discriminate].
  rewrite (IH h h' k y (conj K1 K2) Ek). cbn. destruct y as [[c|]|]; auto.
Qed.

(** A string with a first character has a rest. *)
Lemma head_tail : forall f h p,
  (head_of f h p = Ok (Some None) -> match tail_of f h p with Ok (_, x) => x = Some None | Stop w => w <> NullDeref end) /\
  (forall c, head_of f h p = Ok (Some (Some c)) -> match tail_of f h p with Ok (_, x) => exists q, x = Some (Some q) | Stop w => w <> NullDeref end).
Proof.
  induction f as [|f IH]; intros h p; [split; cbn; [discriminate|discriminate]|].
  destruct p as [a|]; [|split; cbn; discriminate].
  cbn. unfold node_at. destruct (mh h a) as [n|]; cbn; [|split; discriminate].
  destruct (n_tag n).
  - destruct (n_text n); cbn; split; try discriminate; auto. intros. eauto.
  - split; discriminate.
  - induction (n_kids n) as [|k ks [IH1 IH2]]; cbn; [split; [auto|discriminate]|].
    destruct (IH h k) as [K1 K2]. destruct (head_of f h k) as [[[c|]|]|]; cbn; try (split; discriminate).
    + split; [discriminate|]. intros c' _. specialize (K2 c eq_refl). destruct (tail_of f h k) as [[h' x]|w]; cbn; auto. destruct K2 as [q ->].
      destruct ks; eauto. unfold copy_all.
      match goal with |- match bind ?y _ with _ => _ end => assert (Z : match y with Stop w => w <> NullDeref | _ => True end) end.
      { generalize (o :: ks). intros l. clear. assert (G : forall (x : out heap), match x with Stop w => w <> NullDeref | _ => True end ->
          match fold_left (fun x p => bind x (fun h => copy h p)) l x with Stop w => w <> NullDeref | _ => True end).
        { induction l as [|p l IH]; intros x X; auto. cbn. apply IH. destruct x as [h|w]; cbn; auto. destruct p as [a|]; cbn; auto. unfold node_at. destruct (mh h a); cbn; auto. discriminate. }
        apply G. exact Logic.I. }
      destruct (fold_left _ _ _) as [h2|w]; cbn; auto. eauto.
    + specialize (K1 eq_refl). destruct (tail_of f h k) as [[h' x]|w]; cbn; [|split; auto]. subst x. split; auto.
Qed.

Definition nulls (w : stop) : Prop := w = Timeout \/ w = NullDeref.
Lemma tail_of_ok : forall f h r re, inv h r re -> forall p, live h p ->
  post nulls (tail_of f h p) (fun y => keep h (fst y) /\ sub h (fst y) /\
    match snd y with Some (Some c) => inv (fst y) (add (Some c) r) re | _ => fst y = h end).
Proof.
  induction f as [|f IH]; intros h r re I p L; cbn; [left; auto|].
  destruct p as [a|]; [|right; reflexivity]. destruct L as [n H]. cbn. unfold node_at. rewrite H. cbn.
  destruct (n_tag n).
  - destruct (n_text n) as [|c t]; cbn [fst snd post]; [split; [apply keep_refl|split; [apply sub_refl|auto]]|].
    split; [exact (keep_new h r re (mk_node TPlain t [] 1) I)|split; [exact (sub_new h (mk_node TPlain t [] 1))|]].
    apply (new_node_ok h r re (mk_node TPlain t [] 1)); auto.
  - cbn. split; [apply keep_refl|split; [apply sub_refl|auto]].
  - assert (LK : forall k, In k (n_kids n) -> live h k).
    { intros [k|] Ik; cbn; auto. eapply live_kid; eauto. }
    induction (n_kids n) as [|k ks IHk]; [cbn; split; [apply keep_refl|split; [apply sub_refl|auto]]|]. cbn.
    eapply post_bind; [eapply IH; eauto; apply LK; left; auto|].
    intros [h' [[c|]|]]; cbn [fst snd]; intros [K [B J]].
    + destruct ks as [|k2 ks]; [cbn; auto|].
      eapply post_bind; [eapply post_weak; [apply copy_all_ok; [exact J|]|intros w []|intros ? Q; exact Q]|].
      * intros p Ip. eapply keep_live; [exact K|]. apply LK. right. auto.
      * intros h2 [J2 [B2 A2]]. cbn [new_node post fst snd]. set (x := mk_node TSequence [] (Some c :: k2 :: ks) 1). split; [|split].
        -- eapply keep_trans; [exact K|]. eapply keep_trans; [apply alike_keep; exact A2|]. exact (keep_new h2 _ _ x J2).
        -- eapply sub_trans; [exact B|]. eapply sub_trans; [exact B2|exact (sub_new h2 x)].
        -- apply (new_node_ok h2 r re x); auto. eapply inv_ext; [exact J2| |]; auto. intros a0. unfold adds, add. cbn [cnt x n_kids]. lia.
    + subst h'. apply IHk. intros q Q. apply LK. right. auto.
    + subst h'. cbn. auto.
Qed.

Lemma free_res : forall (f : nat) (p : option nat) h h' r re, inv h (add p r) re -> free f h p = Ok h' -> inv h' r re /\ sub h h'.
Proof. intros f p h h' r re I E. pose proof (free_ok f p h r re I) as P. rewrite E in P. cbn in P. tauto. Qed.

Lemma live_add : forall h r re p, inv h (add p r) re -> live h p.
Proof. intros h r re [a|] I; cbn; auto. apply (live_r _ _ _ a I). unfold add. rewrite one_same. lia. Qed.
Lemma elive_add : forall h r re p, inv h r (add p re) -> elive h p.
Proof. intros h r re [a|] I; cbn; auto. apply (elive_r _ _ _ a I). unfold add. rewrite one_same. lia. Qed.
Lemma add_swap : forall h p q r re, inv h (add p (add q r)) re -> inv h (add q (add p r)) re.
Proof. intros. eapply inv_ext; eauto. intros a. unfold add. lia. Qed.

Lemma eq_loop_ok : forall f h a b r re, inv h (add a (add b r)) re ->
  post timeout (eq_loop f h a b) (fun y => inv (fst y) r re /\ sub h (fst y)).
Proof.
  induction f as [|f IH]; intros h a b r re I; cbn [eq_loop]; [reflexivity|].
  assert (FIN : forall x, post timeout (bind (free f h a) (fun h1 => bind (free f h1 b) (fun h2 => Ok (h2, x)))) (fun y : heap * option bool => inv (fst y) r re /\ sub h (fst y))).
  { intros x. eapply post_bind; [apply free_ok; exact I|]. intros h1 [I1 [B1 _]]. eapply post_bind; [apply free_ok; exact I1|].
    intros h2 [I2 [B2 _]]. cbn. split; auto. eapply sub_trans; eauto. }
  pose proof (live_add _ _ _ _ I) as La. pose proof (live_add _ _ _ _ (add_swap _ _ _ _ _ I)) as Lb.
  pose proof (head_of_ok f h _ _ I a La) as Ha. destruct (head_of f h a) as [[ca|]|w] eqn:Ea; [|apply FIN|exact Ha].
  cbn [bind]. pose proof (head_of_ok f h _ _ I b Lb) as Hb. destruct (head_of f h b) as [[cb|]|w] eqn:Eb; [|apply FIN|exact Hb].
  cbn [bind]. destruct ca as [x|], cb as [y|]; try apply FIN. destruct (x =? y)%Z; [|apply FIN].
  destruct (head_tail f h a) as [_ HT]. specialize (HT x Ea). pose proof (tail_of_ok f h _ _ I a La) as T. destruct (tail_of f h a) as [[h1 z]|w].
  2:{ cbn in *. destruct T; [auto|contradiction]. }
  cbn [bind]. destruct HT as [na ->]. cbn [fst snd post] in T. destruct T as [K1 [B1 I1]].
  destruct (head_tail f h1 b) as [_ HT]. specialize (HT y (head_keep _ _ _ _ _ K1 Eb)). pose proof (tail_of_ok f h1 _ _ I1 b (keep_live _ _ _ K1 Lb)) as T. destruct (tail_of f h1 b) as [[h2 z]|w].
  2:{ cbn in *. destruct T; [auto|contradiction]. }
  cbn [bind]. destruct HT as [nb ->]. cbn [fst snd post] in T. destruct T as [K2 [B2 I2]].
  assert (I3 : inv h2 (add a (add b (add (Some na) (add (Some nb) r)))) re) by (eapply inv_ext; [exact I2| |]; auto; intros c; unfold add; lia).
  eapply post_bind; [apply free_ok; exact I3|]. intros h3 [I4 [B3 _]]. eapply post_bind; [apply free_ok; exact I4|]. intros h4 [I5 [B4 _]].
  eapply post_weak; [apply IH; exact I5|auto|]. intros y' [J B]. split; auto.
  eapply sub_trans; [exact B1|]. eapply sub_trans; [exact B2|]. eapply sub_trans; [exact B3|]. eapply sub_trans; eauto.
Qed.
Lemma eq_ok : forall f h a b r re, inv h r re -> live h a -> live h b ->
  post timeout (eq f h a b) (fun y => inv (fst y) r re /\ sub h (fst y)).
Proof.
  intros f h a b r re I La Lb. unfold eq. eapply post_bind; [eapply post_weak; [apply copy_ok; eauto|intros w []|intros ? Q; exact Q]|].
  intros h1 [I1 [B1 A1]]. eapply post_bind; [eapply post_weak; [apply (copy_ok h1 _ _ b I1)|intros w []|intros ? Q; exact Q]|].
  - eapply alike_live; eauto.
  - intros h2 [I2 [B2 A2]]. eapply post_weak; [apply eq_loop_ok; apply add_swap; exact I2|auto|]. intros y [J B]. split; auto.
    eapply sub_trans; [exact B1|]. eapply sub_trans; eauto.
Qed.

Lemma map_plain_ok : forall f g h r re, inv h r re -> forall p, live h p ->
  post nulls (map_plain f g h p) (fun y => keep h (fst y) /\ sub h (fst y) /\ inv (fst y) (add (Some (snd y)) r) re).
Proof.
  induction f as [|f IH]; intros g h r re I p L; cbn; [left; auto|].
  destruct p as [a|]; [|right; reflexivity]. pose proof L as [n H]. cbn. unfold node_at. rewrite H. cbn.
  assert (C := copy_ok h r re (Some a) I L). cbn in C. unfold node_at in C. rewrite H in C. cbn in C. destruct C as [C1 [C2 C3]].
  destruct (n_tag n).
  - rewrite (surjective_pairing (new_node _ _)). cbn [fst snd post]. split; [|split].
    + eapply keep_trans; [apply alike_keep; exact C3|]. eapply keep_new; eauto.
    + eapply sub_trans; [exact C2|apply sub_new].
    + apply new_node_ok; auto. eapply inv_ext; [exact C1| |]; auto. intros b. unfold adds, add. cbn. lia.
  - cbn [post fst snd]. split; [apply alike_keep; exact C3|split; auto].
  - assert (LK : forall k, In k (n_kids n) -> live h k).
    { intros [k|] Ik; cbn; auto. eapply live_kid; eauto. }
    eapply post_bind with (P := fun y => keep h (fst y) /\ sub h (fst y) /\ inv (fst y) (adds (snd y) r) re).
    + clear C1 C2 C3 H. revert h r I L LK. induction (n_kids n) as [|k ks IHk]; intros h r I L LK; cbn.
      * split; [apply keep_refl|split; [apply sub_refl|]]. eapply inv_ext; [exact I| |]; auto.
      * eapply post_bind; [eapply IH; eauto; apply LK; left; auto|]. intros [h1 q] [K1 [B1 I1]]. cbn [fst snd] in *.
        eapply post_bind; [apply (IHk h1 _ I1)|].
        -- eapply keep_live; eauto.
        -- intros q' Q. eapply keep_live; [exact K1|]. apply LK. right. auto.
        -- intros [h2 l] [K2 [B2 I2]]. cbn [fst snd post] in *. split; [eapply keep_trans; eauto|split; [eapply sub_trans; eauto|]].
           eapply inv_ext; [exact I2| |]; auto. intros b. unfold adds, add. cbn. lia.
    + intros [h1 ks] [K1 [B1 I1]]. cbn [fst snd] in *. rewrite (surjective_pairing (new_node _ _)). cbn [fst snd post]. split; [|split].
      * eapply keep_trans; [exact K1|]. eapply keep_new; eauto.
      * eapply sub_trans; [exact B1|apply sub_new].
      * apply new_node_ok; auto.
Qed.
