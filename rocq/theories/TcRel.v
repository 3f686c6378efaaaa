(** * The reference evaluator against the semantics: the relations (proof device). *)
From Coq Require Import List Arith Lia Bool.
From Verif Require Import FuncModel CodeModel CompileModel CompileEval CompileStatic CompileRel TcSpec.
Import ListNotations.

Notation estore := (list (option eval_val)).

(** ** Following references in the evaluator's store *)
Inductive wchain (w : estore) : eval_val -> eval_val -> Prop :=
| wchain_value v : (forall l, v <> VRef l) -> wchain w v v
| wchain_undefined l : nth_error w l = Some None -> wchain w (VRef l) (VRef l)
| wchain_step l v x : nth_error w l = Some (Some v) -> wchain w v x -> wchain w (VRef l) x.

(** The references on the way. *)
Inductive visits (w : estore) : eval_val -> list nat -> eval_val -> Prop :=
| visits_value v : (forall l, v <> VRef l) -> visits w v [] v
| visits_undefined l : nth_error w l = Some None -> visits w (VRef l) [l] (VRef l)
| visits_step l v x ls : nth_error w l = Some (Some v) -> visits w v ls x -> visits w (VRef l) (l :: ls) x.

Lemma wchain_visits : forall w v x, wchain w v x -> exists ls, visits w v ls x.
Proof. induction 1; eauto using visits. destruct IHwchain as [ls H1]. eauto using visits. Qed.

Lemma visits_det : forall w v ls x, visits w v ls x -> forall ls' x', visits w v ls' x' -> ls = ls' /\ x = x'.
Proof.
  induction 1; intros ls' x' H'; inversion H'; subst; try congruence; auto; try (exfalso; eapply H; reflexivity).
  rewrite H in H2. injection H2 as <-. destruct (IHvisits _ _ H3) as [-> ->]. auto.
Qed.

Lemma visits_suffix : forall w v ls x, visits w v ls x -> forall l, In l ls ->
  exists ls', visits w (VRef l) ls' x /\ length ls' <= length ls.
Proof.
  induction 1; intros l' I.
  - destruct I.
  - destruct I as [<-|[]]. exists [l]. split; auto. constructor; auto.
  - destruct I as [<-|I].
    + exists (l :: ls). split; auto. econstructor; eauto.
    + destruct (IHvisits _ I) as [ls' [A B]]. exists ls'. split; auto. cbn. lia.
Qed.

Lemma visits_nodup : forall w v ls x, visits w v ls x -> NoDup ls.
Proof.
  induction 1.
  - constructor.
  - constructor; auto. constructor.
  - constructor; auto. intros I. destruct (visits_suffix _ _ _ _ H0 _ I) as [ls' [A B]].
    destruct (visits_det _ _ _ _ A (l :: ls) x) as [-> _]; [econstructor; eauto|]. cbn in B. lia.
Qed.

Lemma visits_range : forall w v ls x, visits w v ls x -> Forall (fun l => l < length w) ls.
Proof. induction 1; constructor; auto; apply nth_error_Some; congruence. Qed.

Lemma visits_length : forall w v ls x, visits w v ls x -> length ls <= length w.
Proof.
  intros w v ls x H. rewrite <- (seq_length (length w) 0). apply NoDup_incl_length; [eapply visits_nodup; eauto|].
  intros l I. apply in_seq. pose proof (visits_range _ _ _ _ H) as R. rewrite Forall_forall in R. specialize (R _ I). lia.
Qed.

Lemma visits_unwrap : forall w v ls x, visits w v ls x -> forall k, length ls <= k -> unwrap_fuel k w v = Some x.
Proof.
  induction 1; intros k L.
  - destruct v; try (destruct k; reflexivity). exfalso. eapply H. reflexivity.
  - destruct k; cbn; rewrite H; reflexivity.
  - cbn in L. destruct k; [lia|]. cbn. rewrite H. apply IHvisits. lia.
Qed.

Lemma unwrap_wchain : forall w k v x, unwrap_fuel k w v = Some x -> wchain w v x.
Proof.
  induction k; intros v x H; destruct v; cbn in H; try (injection H as <-; constructor; discriminate);
    destruct (nth_error w l) as [[y|]|] eqn:E; try discriminate.
  - injection H as <-. apply wchain_undefined. auto.
  - eapply wchain_step; eauto.
  - injection H as <-. apply wchain_undefined. auto.
Qed.

Lemma wchain_unwrap : forall w v x, wchain w v x <-> unwrap_fuel (length w) w v = Some x.
Proof.
  split; [|apply unwrap_wchain]. intros H. apply wchain_visits in H. destruct H as [ls H].
  eapply visits_unwrap; eauto. eapply visits_length; eauto.
Qed.

(** strict_value in terms of unwrap_fuel. *)
Lemma strict_unwrap : forall (w : estore) k v, strict_fuel k w v =
  match unwrap_fuel k w v with Some (VRef _) => SUndef | Some x => SVal x | None => SBad end.
Proof.
  induction k; intros v; destruct v; cbn; auto; destruct (nth_error w l) as [[y|]|] eqn:E; auto.
Qed.

Lemma wchain_det : forall w v x x', wchain w v x -> wchain w v x' -> x = x'.
Proof. intros w v x x' H H'. apply wchain_unwrap in H, H'. congruence. Qed.

Lemma strict_val : forall (w : estore) v x, strict_value w v = SVal x <-> wchain w v x /\ forall l, x <> VRef l.
Proof.
  intros w v x. unfold strict_value. rewrite strict_unwrap, wchain_unwrap.
  destruct (unwrap_fuel (length w) w v) as [[]|]; split; try discriminate; try (intros [H _]; discriminate);
    try (intros H; injection H as <-; split; [reflexivity|discriminate]);
    try (intros [H _]; injection H as <-; reflexivity).
  intros [H N]. injection H as <-. exfalso. eapply N. reflexivity.
Qed.

Lemma strict_undef : forall (w : estore) v, strict_value w v = SUndef <-> exists l, wchain w v (VRef l).
Proof.
  intros w v. unfold strict_value. rewrite strict_unwrap. split.
  - destruct (unwrap_fuel (length w) w v) as [[]|] eqn:E; try discriminate. intros _. exists l. apply wchain_unwrap. auto.
  - intros [l H]. apply wchain_unwrap in H. rewrite H. reflexivity.
Qed.

(** ** Growing stores *)
Definition wle (w w' : estore) : Prop :=
  length w <= length w' /\ forall l v, nth_error w l = Some (Some v) -> nth_error w' l = Some (Some v).

Definition grow (w w' : estore) : Prop := exists x, w' = w ++ x.

Lemma wle_refl : forall w, wle w w.
Proof. split; auto. Qed.
Lemma wle_trans : forall a b c, wle a b -> wle b c -> wle a c.
Proof. intros a b c [H1 H2] [H3 H4]. split; [lia|auto]. Qed.
Lemma grow_refl : forall w, grow w w.
Proof. intros w. exists []. rewrite app_nil_r. reflexivity. Qed.
Lemma grow_trans : forall a b c, grow a b -> grow b c -> grow a c.
Proof. intros a b c [x ->] [y ->]. exists (x ++ y). rewrite app_assoc. reflexivity. Qed.
Lemma grow_wle : forall w w', grow w w' -> wle w w'.
Proof.
  intros w w' [x ->]. split; [rewrite app_length; lia|]. intros l v H.
  rewrite nth_error_app1; auto. apply nth_error_Some. congruence.
Qed.

Lemma wchain_mono : forall w w', wle w w' -> forall v x, wchain w v x -> (forall l, x <> VRef l) -> wchain w' v x.
Proof.
  intros w w' [_ H] v x C. induction C; intros N.
  - constructor; auto.
  - exfalso. eapply N. reflexivity.
  - econstructor; eauto.
Qed.

(** ** Values *)
Fixpoint levels (e : tc) : nat := match e with TFunc _ b => S (levels b) | _ => 0 end.

(** Giving arguments to a function whose body is a function. *)
Inductive applied : list sval -> tc -> list sval -> list sval -> tc -> Prop :=
| applied_nil ss b : applied ss b [] ss b
| applied_cons ss scope b y ys ss2 ss' b' :
    Forall2 (fun v x => slookup ss [y] [] v = Some x) scope ss2 -> applied ss2 b ys ss' b' ->
    applied ss (TFunc scope b) (y :: ys) ss' b'.

Inductive erel (w : estore) : eval_val -> sval -> Prop :=
| EStruct xs ys : Forall2 (erel w) xs ys -> erel w (VStruct xs) (SStruct ys)
| EUnion t x y : erel w x y -> erel w (VUnion t x) (SUnion t y)
| EFunc n b k xs scope ss body : Forall2 (erel w) xs ss -> length scope = length ss ->
    wf (length ss) 1 [] body = true -> merge_func scope body = (n, b) ->
    erel w (VFunc n b k xs) (SClosure ss body)
| EPapp n k f fn ys ys' ss body ss' body' : wchain w f fn -> erel w fn (SClosure ss body) ->
    applied ss body ys' ss' body' -> Forall2 (erel w) ys ys' -> n = 1 + levels body' ->
    erel w (VPapp n k f ys) (SClosure ss' body')
| ERef l : erel w (VRef l) (SRef l)
| EType : erel w VType SType.

Lemma Forall2_mono : forall {A B} (P Q : A -> B -> Prop), (forall a b, P a b -> Q a b) ->
  forall l l', Forall2 P l l' -> Forall2 Q l l'.
Proof. induction 2; constructor; auto. Qed.

Lemma erel_closure_val : forall w v ss b, erel w v (SClosure ss b) -> forall l, v <> VRef l.
Proof. intros w v ss b H l E. subst. inversion H. Qed.

Lemma erel_mono : forall w w', wle w w' -> forall v x, erel w v x -> erel w' v x.
Proof.
  intros w w' L. fix IH 3. intros v x H. destruct H as [xs ys H|t x y H|n b k xs scope ss body H E1 E2 E3|n k f fn ys ys' ss body ss' body' C H A F En|l|].
  - constructor. clear -IH H. induction H; constructor; auto.
  - constructor. auto.
  - econstructor; eauto. clear -IH H. induction H; constructor; auto.
  - pose proof (wchain_mono _ _ L _ _ C (erel_closure_val _ _ _ _ H)) as C'.
    apply IH in H. econstructor; eauto. clear -IH F. induction F; constructor; auto.
  - constructor.
  - constructor.
Qed.

Definition oerel (w : estore) (o : option eval_val) (p : option sval) : Prop :=
  match o, p with Some v, Some x => erel w v x | None, None => True | _, _ => False end.

Lemma oerel_mono : forall w w', wle w w' -> forall o p, oerel w o p -> oerel w' o p.
Proof. intros w w' L [v|] [x|] H; cbn in *; auto. eapply erel_mono; eauto. Qed.

Definition strel (w : estore) (S : store) : Prop := Forall2 (oerel w) w S.

(** ** The stores tell the same values *)
Lemma chain_rel : forall w S, strel w S -> forall v x, wchain w v x -> forall sv, erel w v sv ->
  exists sx, chain S sv sx /\ erel w x sx.
Proof.
  intros w S R v x C. induction C; intros sv E.
  - exists sv. split; auto. constructor. intros l ->. inversion E; subst. eapply H; eauto.
  - inversion E; subst. exists (SRef l). split; auto. apply chain_undefined.
    pose proof (F2_nth_error _ _ _ R l) as N. rewrite H in N. destruct (nth_error S l) as [[y|]|]; cbn in N; try contradiction. auto.
  - inversion E; subst. pose proof (F2_nth_error _ _ _ R l) as N. rewrite H in N.
    destruct (nth_error S l) as [[y|]|] eqn:Es; cbn in N; try contradiction.
    destruct (IHC _ N) as [sx [A B]]. exists sx. split; auto. econstructor; eauto.
Qed.

Lemma chain_rel_back : forall w S, strel w S -> forall sv sx, chain S sv sx -> forall v, erel w v sv ->
  exists x, wchain w v x /\ erel w x sx.
Proof.
  intros w S R sv sx C. induction C; intros u E.
  - exists u. split; auto. constructor. intros l ->. inversion E; subst. eapply H; eauto.
  - inversion E; subst. exists (VRef l). split; auto. apply wchain_undefined.
    pose proof (F2_nth_error _ _ _ R l) as N. rewrite H in N. destruct (nth_error w l) as [[y|]|]; cbn in N; try contradiction. auto.
  - inversion E; subst. pose proof (F2_nth_error _ _ _ R l) as N. rewrite H in N.
    destruct (nth_error w l) as [[y|]|] eqn:Es; cbn in N; try contradiction.
    destruct (IHC _ N) as [sx [A B]]. exists sx. split; auto. econstructor; eauto.
Qed.

Lemma chain_det : forall S v x, chain S v x -> forall x', chain S v x' -> x = x'.
Proof.
  induction 1; intros x' H'; inversion H'; subst; auto; try congruence; try (exfalso; eapply H; reflexivity).
  apply IHchain. congruence.
Qed.

Lemma strict_rel_val : forall w S v sv, strel w S -> erel w v sv -> forall x, strict_value w v = SVal x ->
  exists sx, chain S sv sx /\ erel w x sx.
Proof. intros w S v sv R E x H. apply strict_val in H. eapply chain_rel; [exact R|apply H|auto]. Qed.

Lemma strict_rel_undef : forall w S v sv, strel w S -> erel w v sv -> strict_value w v = SUndef -> undefined S sv.
Proof.
  intros w S v sv R E H. apply strict_undef in H. destruct H as [l H].
  destruct (chain_rel _ _ R _ _ H _ E) as [sx [A B]]. inversion B; subst. exists l. auto.
Qed.

Lemma chain_strict : forall w S v sv sx, strel w S -> erel w v sv -> chain S sv sx -> (forall l, sx <> SRef l) ->
  exists x, strict_value w v = SVal x /\ wchain w v x /\ erel w x sx.
Proof.
  intros w S v sv sx R E C N. destruct (chain_rel_back _ _ R _ _ C _ E) as [x [A B]].
  exists x. split; auto. apply strict_val. split; auto. intros l ->. inversion B; subst. eapply N; reflexivity.
Qed.

Lemma undefined_strict : forall w S v sv, strel w S -> erel w v sv -> undefined S sv -> strict_value w v = SUndef.
Proof.
  intros w S v sv R E [l C]. destruct (chain_rel_back _ _ R _ _ C _ E) as [x [A B]]. inversion B; subst.
  apply strict_undef. eauto.
Qed.

(** ** Functions *)
Lemma merge_loop_nargs : forall body st off n, exists st' off' b,
  merge_loop st off n body = (st', off', n + levels body, b) /\ levels b = 0.
Proof.
  induction body using tc_ind'; intros st off n; cbn [merge_loop levels];
    try (eexists; eexists; eexists; split; [rewrite Nat.add_0_r; reflexivity|reflexivity]; fail).
  destruct (IHbody (map (rewrite_var st off) scope) n (n + 1)) as [st' [off' [b0 [A B]]]].
  exists st', off', b0. split; auto. rewrite A. f_equal. f_equal. lia.
Qed.

Lemma applied_wf : forall ss b ys ss' b', applied ss b ys ss' b' -> wf (length ss) 1 [] b = true ->
  wf (length ss') 1 [] b' = true /\ levels b = length ys + levels b'.
Proof.
  induction 1 as [|ss scope b y ys ss2 ss' b' F A IH]; intros W; auto. cbn in W. apply andb_true_iff in W.
  destruct W as [_ W]. rewrite (F2_len _ _ _ F) in W. destruct (IH W) as [A1 A2]. split; auto. cbn. lia.
Qed.

Lemma applied_app : forall ss b ys ss1 b1, applied ss b ys ss1 b1 -> forall zs ss2 b2,
  applied ss1 b1 zs ss2 b2 -> applied ss b (ys ++ zs) ss2 b2.
Proof. induction 1; intros; cbn; auto. econstructor; eauto. Qed.

Lemma erel_nargs : forall w v ss b, erel w v (SClosure ss b) ->
  num_args_of v = Some (1 + levels b) /\ wf (length ss) 1 [] b = true.
Proof.
  intros w v ss b H. remember (SClosure ss b) as c. revert ss b Heqc. induction H; intros ss0 b0 E; inversion E; subst.
  - cbn. split; auto. unfold merge_func in H2.
    destruct (merge_loop_nargs b0 (map Static (seq 0 (length scope))) 0 1) as [st' [off' [b1 [A _]]]].
    rewrite A in H2. injection H2 as <- _. reflexivity.
  - cbn. split; auto. destruct (IHerel _ _ eq_refl) as [_ W]. eapply applied_wf; eauto.
Qed.

(** Well scoped variables have values. *)
Definition wfenv (bs : list bool) (env : list (option sval)) : Prop :=
  Forall2 (fun b o => b = true -> o <> None) bs env.

Lemma slookup_def : forall ss xs env bs v, wf_var (length ss) (length xs) bs v = true -> wfenv bs env ->
  exists x, slookup ss xs env v = Some x.
Proof.
  intros ss xs env bs v W We. destruct v as [i|i|i]; cbn in *.
  - apply Nat.ltb_lt in W. destruct (nth_error ss i) eqn:E; eauto. apply nth_error_None in E. lia.
  - apply Nat.ltb_lt in W. destruct (nth_error xs i) eqn:E; eauto. apply nth_error_None in E. lia.
  - pose proof (F2_nth_error _ _ _ We i) as N. destruct (nth_error bs i) as [b|] eqn:E.
    + rewrite (nth_error_nth _ _ _ E) in W. destruct (nth_error env i) as [[x|]|]; try contradiction; eauto.
      exfalso. apply N; auto.
    + rewrite nth_overflow in W; [discriminate|]. apply nth_error_None. auto.
Qed.

Lemma slookups_def : forall ss xs env bs scope, forallb (wf_var (length ss) (length xs) bs) scope = true -> wfenv bs env ->
  exists vs, Forall2 (fun v x => slookup ss xs env v = Some x) scope vs.
Proof.
  intros ss xs env bs scope. induction scope as [|v scope IH]; cbn; intros W We; [exists []; constructor|].
  apply andb_true_iff in W. destruct W as [W1 W2]. destruct (slookup_def ss xs env bs v W1 We) as [x Hx].
  destruct (IH W2 We) as [vs Hv]. exists (x :: vs). constructor; auto.
Qed.

(** Giving fewer arguments than needed. *)
Lemma applied_some : forall ys b ss, wf (length ss) 1 [] b = true -> length ys <= levels b ->
  exists ss' b', applied ss b ys ss' b'.
Proof.
  induction ys as [|y ys IH]; intros b ss W L; [exists ss, b; constructor|].
  destruct b; cbn in L; try lia. cbn in W. apply andb_true_iff in W. destruct W as [W1 W2].
  destruct (slookups_def ss [y] [] [] scope) as [vs Hv]; auto; [constructor|].
  destruct (IH b vs) as [ss' [b' A]]; [rewrite <- (F2_len _ _ _ Hv); auto|lia|].
  exists ss', b'. econstructor; eauto.
Qed.

(** The function a running function has been made of: its statics and arguments are found
    by the variables [st] and the arguments from [off] on. *)
Record frame (w : estore) (st : list var) (off : nat) (statics args : list eval_val) (ss xs : list sval) : Prop := {
  f_st : Forall2 (fun v x => exists x', lookup statics args [] v = Some x' /\ erel w x' x) st ss;
  f_args : forall i x, nth_error xs i = Some x -> exists x', nth_error args (i + off) = Some x' /\ erel w x' x }.

Lemma frame_mono : forall w w', wle w w' -> forall st off statics args ss xs,
  frame w st off statics args ss xs -> frame w' st off statics args ss xs.
Proof.
  intros w w' L st off statics args ss xs [A B]. split.
  - eapply Forall2_mono; [|exact A]. intros v x [x' [H1 H2]]. exists x'. split; auto. eapply erel_mono; eauto.
  - intros i x H. destruct (B i x H) as [x' [H1 H2]]. exists x'. split; auto. eapply erel_mono; eauto.
Qed.

Lemma lookup_rel_spec : forall w st off statics args ss xs, frame w st off statics args ss xs ->
  forall env senv v x, Forall2 (oerel w) env senv -> slookup ss xs senv v = Some x ->
  exists x', lookup statics args env (rewrite_var st off v) = Some x' /\ erel w x' x.
Proof.
  intros w st off statics args ss xs [A B] env senv v x F H. destruct v as [i|i|i]; cbn in H.
  - cbn [rewrite_var]. pose proof (F2_nth_error _ _ _ A i) as N. rewrite H in N.
    destruct (nth_error st i) as [u|] eqn:Eu; [|contradiction]. rewrite (nth_error_nth _ _ _ Eu).
    destruct N as [x' [N1 N2]]. exists x'. split; auto. destruct u as [j|j|j]; cbn in *; auto. destruct j; discriminate.
  - cbn. apply B. auto.
  - cbn. pose proof (F2_nth_error _ _ _ F i) as N. destruct (nth_error senv i) as [[y|]|]; try discriminate.
    injection H as ->. destruct (nth_error env i) as [[x'|]|]; cbn in N; try contradiction. eauto.
Qed.

Lemma lookups_rel_spec : forall w st off statics args ss xs, frame w st off statics args ss xs ->
  forall env senv, Forall2 (oerel w) env senv -> forall scope vs,
  Forall2 (fun v x => slookup ss xs senv v = Some x) scope vs ->
  exists vs', lookups statics args env (map (rewrite_var st off) scope) = Some vs' /\ Forall2 (erel w) vs' vs.
Proof.
  intros w st off statics args ss xs Fr env senv F scope vs H. induction H as [|v x scope vs H H1 IH]; cbn; [exists []; auto|].
  destruct (lookup_rel_spec _ _ _ _ _ _ _ Fr _ _ _ _ F H) as [x' [A B]]. destruct IH as [vs' [C D]].
  rewrite A, C. exists (x' :: vs'). auto.
Qed.

(** The frame of a merged function that has all its arguments. *)
Lemma merge_frame : forall w statics args sargs, Forall2 (erel w) args sargs ->
  forall body pre ys a st off n st' off' n' b ss, merge_loop st off n body = (st', off', n', b) ->
  sargs = pre ++ ys ++ [a] -> off = length pre -> n = S off -> length ys = levels body ->
  (forall x, nth_error (ys ++ [a]) 0 = Some x -> frame w st off statics args ss [x]) ->
  wf (length ss) 1 [] body = true ->
  exists ss', applied ss body ys ss' b /\ levels b = 0 /\ frame w st' off' statics args ss' [a] /\ length st' = length ss'.
Proof.
  intros w statics args sargs Fa.
  induction body using tc_ind'; intros pre ys a0 st off n st' off' n' b0 ss M Es Eo En Ly Fr W;
    try (cbn in M, Ly; injection M as <- <- <- <-; destruct ys; [|discriminate]; exists ss;
         specialize (Fr a0 eq_refl); split; [constructor|split; [reflexivity|split; [auto|exact (F2_len _ _ _ (f_st _ _ _ _ _ _ _ Fr))]]]; fail).
  cbn in M, Ly, W. destruct ys as [|y ys]; [discriminate|]. injection Ly as Ly. apply andb_true_iff in W. destruct W as [W1 W2].
  specialize (Fr y eq_refl). destruct (slookups_def ss [y] [] [] scope) as [vs Hv]; auto; [constructor|].
  destruct (IHbody (pre ++ [y]) ys a0 _ _ _ _ _ _ _ vs M) as [ss' [A1 [A2 [A3 A4]]]]; auto.
  - rewrite Es, <- app_assoc. reflexivity.
  - rewrite app_length. cbn. lia.
  - lia.
  - intros x Hx. split.
    + clear -Fr Hv. induction Hv as [|v x scope vs H H1 IH]; cbn; constructor; auto.
      eapply lookup_rel_spec; [exact Fr|constructor|auto].
    + intros i z Hz. destruct i; [|destruct i; discriminate]. injection Hz as <-.
      assert (N : nth_error sargs n = Some x).
      { rewrite Es. rewrite nth_error_app2 by lia. replace (n - length pre) with 1 by lia. exact Hx. }
      pose proof (F2_nth_error _ _ _ Fa n) as F. rewrite N in F. destruct (nth_error args n) as [z|] eqn:Ez; [|contradiction].
      exists z. split; auto.
  - rewrite <- (F2_len _ _ _ Hv). auto.
  - exists ss'. split; auto. econstructor; eauto.
Qed.

(** A function value made by the compiler, called with all its arguments. *)
Lemma func_frame : forall w n b k statics ss body args sargs a ys,
  erel w (VFunc n b k statics) (SClosure ss body) -> Forall2 (erel w) args sargs ->
  sargs = ys ++ [a] -> length ys = levels body ->
  exists ss' b' st off, applied ss body ys ss' b' /\ levels b' = 0 /\ b = rewrite_vars st off b' /\
    frame w st off statics args ss' [a] /\ length st = length ss'.
Proof.
  intros w n b k statics ss body args sargs a ys E Fa Es Ly. inversion E as [| |n0 b0 k0 xs0 scope ss0 body0 Hx Hl Hw Hm| | |]; subst. unfold merge_func in Hm.
  destruct (merge_loop (map Static (seq 0 (length scope))) 0 1 body) as [[[st' off'] n'] b'] eqn:M. injection Hm as <- <-.
  assert (Fr : forall x, nth_error (ys ++ [a]) 0 = Some x -> frame w (map Static (seq 0 (length scope))) 0 statics args ss [x]).
  { intros x Hx'. split.
    - rewrite Hl. clear -Hx. 
      assert (G : forall l l' pre, Forall2 (erel w) l l' -> forall i, length pre = i ->
        Forall2 (fun v x => exists x', lookup (pre ++ l) args [] v = Some x' /\ erel w x' x) (map Static (seq i (length l'))) l').
      { intros l l' pre F. revert pre. induction F as [|x y l l' H F IH]; intros pre i L; cbn [length seq map]; constructor.
        - exists x. split; auto. cbn. rewrite nth_error_app2 by lia. rewrite L, Nat.sub_diag. reflexivity.
        - specialize (IH (pre ++ [x]) (S i)). rewrite <- app_assoc in IH. apply IH. rewrite app_length. cbn. lia. }
      apply (G statics ss [] Hx 0). reflexivity.
    - intros i z Hz. destruct i; [|destruct i; discriminate]. injection Hz as <-.
      pose proof (F2_nth_error _ _ _ Fa 0) as F. rewrite Hx' in F. cbn. destruct (nth_error args 0) as [z|] eqn:Ez; [|contradiction].
      exists z. split; auto. }
  destruct (merge_frame w statics args (ys ++ [a]) Fa body [] ys a _ _ _ _ _ _ _ ss M) as [ss' [A1 [A2 [A3 A4]]]]; auto.
  exists ss', b', st', off'. split; auto.
Qed.

(** ** Applying functions in the semantics *)
Lemma levels_function : forall b, is_function b = negb (levels b =? 0).
Proof. destruct b; reflexivity. Qed.

Lemma eval_func_inv : forall ss xs env S scope b r c, eval ss xs env S (TFunc scope b) r c ->
  exists vs, Forall2 (fun v x => slookup ss xs env v = Some x) scope vs /\ r = Some (SClosure vs b, S) /\ c = 0.
Proof.
  intros ss xs env S scope b r c H. remember (TFunc scope b) as e. destruct H; try discriminate;
    try (injection Heqe as -> ->; eauto; fail);
    (exfalso; revert Heqe; clear -H0; destruct es as [|e1 es] using rev_ind; [congruence|rewrite fold_left_app; discriminate]).
Qed.

Lemma lookups_det : forall ss xs env scope vs vs', Forall2 (fun v x => slookup ss xs env v = Some x) scope vs ->
  Forall2 (fun v x => slookup ss xs env v = Some x) scope vs' -> vs = vs'.
Proof. intros ss xs env scope vs vs' H. revert vs'. induction H; intros vs' H'; inversion H'; subst; auto. f_equal; auto. congruence. Qed.

Lemma chain_closure : forall S ss b, chain S (SClosure ss b) (SClosure ss b).
Proof. constructor. discriminate. Qed.

Lemma chain_closure_inv : forall S ss b x, chain S (SClosure ss b) x -> x = SClosure ss b.
Proof. intros S ss b x H. symmetry. eapply chain_det; eauto. apply chain_closure. Qed.

Lemma chain_not_undefined : forall S f ss b, chain S f (SClosure ss b) -> undefined S f -> False.
Proof. intros S f ss b H [l H']. pose proof (chain_det _ _ _ H _ H'). discriminate. Qed.

Lemma apps_inv : forall S f x xs r c, apps S f (x :: xs) r c ->
  (exists ss b g S1 c1 c2, chain S f (SClosure ss b) /\ eval ss [x] [] S b (Some (g, S1)) c1 /\ apps S1 g xs r c2 /\
     c = (if is_function b then 0 else 1) + c1 + c2) \/
  (exists ss b c1, chain S f (SClosure ss b) /\ eval ss [x] [] S b None c1 /\ r = None /\
     c = (if is_function b then 0 else 1) + c1) \/
  (undefined S f /\ r = None /\ c = 0).
Proof.
  intros S f x xs r c H. inversion H; subst.
  - left. repeat eexists; eauto.
  - right; left. repeat eexists; eauto.
  - right; right. auto.
Qed.

(** Applications to at least one argument only use the closure. *)
Lemma apps_closure : forall S f ss b x xs r c, chain S f (SClosure ss b) ->
  apps S f (x :: xs) r c <-> apps S (SClosure ss b) (x :: xs) r c.
Proof.
  intros S f ss b x xs r c C. split; intros H; apply apps_inv in H;
    destruct H as [[ss0 [b0 [g [S1 [c1 [c2 [Ch [Ev [A ->]]]]]]]]]|[[ss0 [b0 [c1 [Ch [Ev [-> ->]]]]]]|[U [-> ->]]]].
  - pose proof (chain_det _ _ _ C _ Ch) as E. injection E as <- <-. eapply apps_cons; eauto. apply chain_closure.
  - pose proof (chain_det _ _ _ C _ Ch) as E. injection E as <- <-. eapply apps_abort; eauto. apply chain_closure.
  - exfalso. eapply chain_not_undefined; eauto.
  - apply chain_closure_inv in Ch. injection Ch as <- <-. eapply apps_cons; eauto.
  - apply chain_closure_inv in Ch. injection Ch as <- <-. eapply apps_abort; eauto.
  - exfalso. eapply chain_not_undefined; [apply chain_closure|eauto].
Qed.

(** The first arguments of a function that returns functions. *)
Lemma apps_applied : forall ss b ys ss' b', applied ss b ys ss' b' -> forall S xs r c,
  apps S (SClosure ss b) (ys ++ xs) r c <-> apps S (SClosure ss' b') xs r c.
Proof.
  induction 1 as [|ss scope b y ys ss2 ss' b' F A IH]; intros S xs r c; [reflexivity|]. cbn [app]. rewrite <- IH. split; intros H.
  - inversion H as [|S0 f0 ss0 b0 x0 xs0 g S1 r0 c1 c2 H2 H5 H7|S0 f0 ss0 b0 x0 xs0 c1 H2 H6|S0 f0 x0 xs0 H4]; subst; clear H.
    + apply chain_closure_inv in H2. injection H2 as -> ->. apply eval_func_inv in H5. destruct H5 as [vs [F' [E ->]]].
      injection E as -> ->. rewrite (lookups_det _ _ _ _ _ _ F F'). exact H7.
    + apply chain_closure_inv in H2. injection H2 as -> ->. apply eval_func_inv in H6. destruct H6 as [vs [_ [E _]]]. discriminate.
    + exfalso. eapply chain_not_undefined; [apply chain_closure|eauto].
  - change c with ((if is_function (TFunc scope b) then 0 else 1) + 0 + c).
    eapply apps_cons; [apply chain_closure|apply eval_func; eauto|auto].
Qed.

Lemma apps_app : forall xs S f r c, forall ys, apps S f (xs ++ ys) r c ->
  (exists g S1 c1 c2, apps S f xs (Some (g, S1)) c1 /\ apps S1 g ys r c2 /\ c = c1 + c2) \/ (apps S f xs None c /\ r = None).
Proof.
  induction xs as [|x xs IH]; intros S f r c ys H; cbn in H.
  - left. exists f, S, 0, c. split; [constructor|]. auto.
  - inversion H as [|S0 f0 ss b x0 xs0 g S1 r0 c1 c2 H2 H5 H7|S0 f0 ss b x0 xs0 c1 H2 H6|S0 f0 x0 xs0 H4]; subst; clear H.
    + destruct (IH _ _ _ _ _ H7) as [[g2 [S2 [c3 [c4 [A [B ->]]]]]]|[A ->]].
      * left. exists g2, S2. eexists. exists c4. split; [eapply apps_cons; eauto|]. split; auto. lia.
      * right. split; auto. eapply apps_cons; eauto.
    + right. split; auto. eapply apps_abort; eauto.
    + right. split; auto. apply apps_undefined. auto.
Qed.

Lemma apps_join : forall xs S f g S1 c1, apps S f xs (Some (g, S1)) c1 -> forall ys r c2, apps S1 g ys r c2 ->
  apps S f (xs ++ ys) r (c1 + c2).
Proof.
  induction xs as [|x xs IH]; intros S f g S1 c1 H ys r c2 H'; inversion H; subst; cbn; auto.
  rewrite <- Nat.add_assoc. eapply apps_cons; eauto.
Qed.

Lemma apps_join_abort : forall xs S f c, apps S f xs None c -> forall ys, apps S f (xs ++ ys) None c.
Proof.
  induction xs as [|x xs IH]; intros S f c H ys; inversion H; subst; cbn.
  - eapply apps_cons; eauto.
  - eapply apps_abort; eauto.
  - apply apps_undefined. auto.
Qed.

(** The relations of local environments *)
Lemma envrel_mono : forall w w' env senv, wle w w' -> Forall2 (oerel w) env senv -> Forall2 (oerel w') env senv.
Proof. intros w w' env senv L F. eapply Forall2_mono; [|exact F]. apply oerel_mono. auto. Qed.

Lemma valsrel_mono : forall w w' xs ys, wle w w' -> Forall2 (erel w) xs ys -> Forall2 (erel w') xs ys.
Proof. intros w w' xs ys L F. eapply Forall2_mono; [|exact F]. intros a b. apply erel_mono. auto. Qed.

Lemma slist_rel : forall w xs ys, Forall2 (erel w) xs ys -> erel w (list_value xs) (slist ys).
Proof. induction 1; cbn; repeat constructor; auto. Qed.

Lemma literal_rel : forall w l, erel w (literal_value l) (slist (map (fun t => SUnion t (SStruct [])) l)).
Proof. intros w l. apply slist_rel. induction l; cbn; constructor; auto. repeat constructor. Qed.

(** ** Recursive lets *)
Lemma alloc_refs_eq : forall n (s : eval_st),
  alloc_refs n s = (map VRef (seq (length (refs s)) n), mk_st (refs s ++ repeat None n) (depth s) (prof s)).
Proof.
  induction n; intros s; cbn.
  - rewrite app_nil_r. destruct s; reflexivity.
  - rewrite IHn. cbn. rewrite app_length. cbn. rewrite Nat.add_1_r, <- app_assoc. reflexivity.
Qed.

Lemma update_rel : forall {R : option eval_val -> option sval -> Prop} w S, Forall2 R w S -> forall l x sx, R (Some x) (Some sx) ->
  Forall2 R (set_nth l (Some x) w) (update S l sx).
Proof. induction 1; intros [|l0] a b Hab; cbn; auto. Qed.

Lemma set_wle : forall (w : estore) l x, nth_error w l = Some None -> wle w (set_nth l (Some x) w).
Proof.
  intros w l x H. split; [rewrite set_nth_length; auto|]. intros l' v Hv. rewrite nth_error_set_nth.
  destruct (l' =? l) eqn:E; cbn; auto.
  apply Nat.eqb_eq in E. subst. congruence.
Qed.

(** [S] and the evaluator's store after giving the references of a recursive let their
    values. *)
Lemma ties_rel : forall S l vs r, ties S l vs r -> forall s ds, strel (refs s) S -> Forall2 (erel (refs s)) ds vs ->
  (forall i, i < length vs -> nth_error (refs s) (l + i) = Some None) ->
  match r with
  | Some S' => exists s', fst (assign_refs (map VRef (seq l (length ds))) ds s) = Some (Some s') /\ strel (refs s') S' /\
      wle (refs s) (refs s') /\ depth s' = depth s /\ length (refs s') = length (refs s) /\
      (forall i, i < l -> nth_error (refs s') i = nth_error (refs s) i)
  | None => fst (assign_refs (map VRef (seq l (length ds))) ds s) = Some None /\
      depth (snd (assign_refs (map VRef (seq l (length ds))) ds s)) = depth s
  end.
Proof.
  induction 1 as [S l|S l v sx vs r C N T IH|S l v vs C]; intros s ds R F Hn.
  - inversion F; subst. exists s. cbn. split; auto. split; auto. split; [apply wle_refl|]. auto.
  - inversion F as [|d v' ds' vs' Ed Fd]; subst. destruct (chain_rel_back _ _ R _ _ C _ Ed) as [x [A B]].
    assert (Hl : nth_error (refs s) l = Some None) by (specialize (Hn 0); rewrite Nat.add_0_r in Hn; apply Hn; cbn; lia).
    pose proof (set_wle _ _ x Hl) as W.
    set (s1 := mk_st (set_nth l (Some x) (refs s)) (depth s) (prof s)) in *.
    assert (As : assign_ref s (VRef l) d = Some (Some s1)).
    { cbn. apply wchain_unwrap in A. rewrite A. destruct x; try reflexivity.
      inversion B; subst. destruct (l0 =? l) eqn:E; [|reflexivity]. apply Nat.eqb_eq in E. subst. congruence. }
    specialize (IH s1 ds').
    assert (R1 : strel (refs s1) (update S l sx)).
    { unfold strel, s1. cbn [refs]. apply update_rel; [|cbn; eapply erel_mono; eauto].
      eapply Forall2_mono; [|exact R]. apply oerel_mono. auto. }
    assert (F1 : Forall2 (erel (refs s1)) ds' vs) by (eapply valsrel_mono; eauto).
    assert (H1 : forall i, i < length vs -> nth_error (refs s1) (1 + l + i) = Some None).
    { intros i Hi. unfold s1. cbn [refs]. rewrite nth_error_set_nth. replace (1 + l + i =? l) with false by (symmetry; apply Nat.eqb_neq; lia).
      cbn [andb]. replace (1 + l + i) with (l + Datatypes.S i) by lia. apply Hn. cbn. lia. }
    specialize (IH R1 F1 H1). cbn [length seq map]. cbn [assign_refs]. rewrite As. change (1 + l) with (Datatypes.S l) in IH.
    destruct r as [S'|].
    + destruct IH as [s' [I1 [I2 [I3 [I4 [I5 I6]]]]]]. exists s'. split; auto. split; auto. split; [eapply wle_trans; eauto|].
      split; auto. split; [rewrite I5; unfold s1; cbn; apply set_nth_length|].
      intros i Hi. rewrite I6 by lia. unfold s1. cbn [refs]. rewrite nth_error_set_nth.
      replace (i =? l) with false by (symmetry; apply Nat.eqb_neq; lia). reflexivity.
    + exact IH.
  - inversion F as [|d v' ds' vs' Ed Fd]; subst. destruct (chain_rel_back _ _ R _ _ C _ Ed) as [x [A B]].
    cbn [length seq map assign_refs assign_ref]. apply wchain_unwrap in A. rewrite A. inversion B; subst. rewrite Nat.eqb_refl.
    split; reflexivity.
Qed.

(** And the other way. *)
Lemma ties_rel_back : forall ds vs S l s, strel (refs s) S -> Forall2 (erel (refs s)) ds vs ->
  (forall i, i < length vs -> nth_error (refs s) (l + i) = Some None) ->
  forall q, fst (assign_refs (map VRef (seq l (length ds))) ds s) = Some q ->
  match q with Some _ => exists S', ties S l vs (Some S') | None => ties S l vs None end.
Proof.
  induction ds as [|d ds IH]; intros vs S l s R F Hn q Q; inversion F as [|d' v ds' vs' Ed Fd]; subst.
  - cbn in Q. injection Q as <-. exists S. constructor.
  - cbn [length seq map assign_refs assign_ref] in Q.
    destruct (unwrap_fuel (length (refs s)) (refs s) d) as [x|] eqn:U; [|discriminate].
    apply wchain_unwrap in U. destruct (chain_rel _ _ R _ _ U _ Ed) as [sx [C B]].
    assert (Hl : nth_error (refs s) l = Some None) by (specialize (Hn 0); rewrite Nat.add_0_r in Hn; apply Hn; cbn; lia).
    pose proof (set_wle _ _ x Hl) as W.
    set (s1 := mk_st (set_nth l (Some x) (refs s)) (depth s) (prof s)) in *.
    assert (Cs : (x = VRef l /\ q = None) \/ (sx <> SRef l /\ fst (assign_refs (map VRef (seq (Datatypes.S l) (length ds))) ds s1) = Some q)).
    { destruct x; try (right; split; [intros ->; inversion B|exact Q]). destruct (l0 =? l) eqn:E.
      - left. apply Nat.eqb_eq in E. subst. cbn in Q. injection Q as <-. auto.
      - right. split; [|exact Q]. apply Nat.eqb_neq in E. intros ->. inversion B. congruence. }
    destruct Cs as [[-> ->]|[N Q1]].
    + inversion B; subst. constructor. auto.
    + apply (IH vs' (update S l sx)) in Q1.
      * destruct q; [destruct Q1 as [S' T]; exists S'|]; econstructor; eauto.
      * unfold strel, s1. cbn [refs]. apply update_rel; [|cbn; eapply erel_mono; eauto].
        eapply Forall2_mono; [|exact R]. apply oerel_mono. auto.
      * eapply valsrel_mono; eauto.
      * intros i Hi. unfold s1. cbn [refs]. rewrite nth_error_set_nth. replace (Datatypes.S l + i =? l) with false by (symmetry; apply Nat.eqb_neq; lia).
        cbn [andb]. replace (Datatypes.S l + i) with (l + Datatypes.S i) by lia. apply Hn. cbn. lia.
Qed.
