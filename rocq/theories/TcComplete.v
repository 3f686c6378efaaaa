(** * What the semantics says happens, the reference evaluator does (proof of C19, first half). *)
From Coq Require Import List Arith Lia Bool.
From Verif Require Import FuncModel FuncProps CodeModel CompileModel CompileEval CompileStatic CompileRel CompileDyn TcSpec TcRel.
Import ListNotations.

Definition answers (s0 : eval_st) (d : nat) (q : res tc) (r : result) : Prop :=
  match r with
  | Some (v, S') => exists v' s', q = (Ret v', s') /\ erel (refs s') v' v /\ strel (refs s') S' /\
      grow (refs s0) (refs s') /\ depth s' = d
  | None => exists s', q = (Abort, s') /\ depth s' = d
  end.

Definition tails (s0 : eval_st) (q : res tc) (r : result) (C : nat) : Prop :=
  exists f' ys' s' f ys S' ss b c, q = (Tail f' ys', s') /\ erel (refs s') f' f /\ Forall2 (erel (refs s')) ys' ys /\
    strel (refs s') S' /\ grow (refs s0) (refs s') /\ depth s' = depth s0 /\ ys <> [] /\
    chain S' f (SClosure ss b) /\ apps S' f ys r c /\ c <= C.

Definition answersL (s0 : eval_st) (q : lres) (r : option (list sval * store)) : Prop :=
  match r with
  | Some (vs, S') => exists vs' s', q = LOk vs' s' /\ Forall2 (erel (refs s')) vs' vs /\ strel (refs s') S' /\
      grow (refs s0) (refs s') /\ depth s' = depth s0
  | None => exists s', q = LFail Abort s' /\ depth s' = depth s0
  end.

Definition calls_ok (c : nat) : Prop := forall S f xs r, apps S f xs r c -> xs <> [] ->
  forall s fv xs', erel (refs s) fv f -> Forall2 (erel (refs s)) xs' xs -> strel (refs s) S ->
  exists q m0, (forall m, m0 <= m -> ecall m s fv xs' = q) /\ answers s (depth s) q r.

Definition tails_ok (c : nat) : Prop := forall S f xs r, apps S f xs r c -> xs <> [] ->
  forall s fv xs' d ss b, erel (refs s) fv f -> Forall2 (erel (refs s)) xs' xs -> strel (refs s) S ->
  chain S f (SClosure ss b) -> depth s = Datatypes.S d ->
  exists q m0, (forall m, m0 <= m -> tail_call ev_run m s fv xs' = q) /\ answers s d q r.

(** ** Selects *)
Lemma branch_eq : forall (f : tc -> res tc) dflt tag (g : tc -> tc) ts,
  (fix branch ts := match ts with
    | [] => f dflt
    | (t, e) :: r => if t =? tag then f e else branch r
    end) (map (fun p => (fst p, g (snd p))) ts) =
  match find_target tag ts with Some e => f (g e) | None => f dflt end.
Proof.
  intros f dflt tag g. induction ts as [|[t e] ts IH]; cbn; auto. destruct (t =? tag); auto.
Qed.

Lemma find_target_none : forall {A} tag (ts : list (nat * A)), ~ In tag (map fst ts) -> find_target tag ts = None.
Proof.
  intros A tag. induction ts as [|[t e] ts IH]; cbn; intros N; auto.
  destruct (t =? tag) eqn:E; [apply Nat.eqb_eq in E; tauto|]. apply IH. tauto.
Qed.

Lemma sorted_from_notin : forall l lo x, sorted_from lo l = true -> x < lo -> ~ In x l.
Proof.
  induction l as [|y l IH]; intros lo x H L I; [destruct I|]. cbn in H. apply andb_true_iff in H. destruct H as [H1 H2].
  apply Nat.leb_le in H1. destruct I as [->|I]; [lia|]. eapply (IH (S y) x); eauto. lia.
Qed.

Lemma find_target_in : forall {A} tag b (ts : list (nat * A)) lo, sorted_from lo (map fst ts) = true -> In (tag, b) ts ->
  find_target tag ts = Some b.
Proof.
  intros A tag b. induction ts as [|[t e] ts IH]; intros lo H I; [destruct I|]. cbn in *. apply andb_true_iff in H. destruct H as [H1 H2].
  destruct I as [E|I].
  - injection E as -> ->. rewrite Nat.eqb_refl. reflexivity.
  - destruct (t =? tag) eqn:E; [|eapply IH; eauto]. apply Nat.eqb_eq in E. subst. exfalso.
    eapply (sorted_from_notin _ (S tag) tag); eauto. apply in_map_iff. exists (tag, b). auto.
Qed.

Lemma spine_fold : forall es h acc, is_application h = false -> spine (fold_left TApply es h) acc = (h, es ++ acc).
Proof.
  intros es. induction es as [|e es IH] using rev_ind; intros h acc Hh; cbn.
  - destruct h; try reflexivity. discriminate.
  - rewrite fold_left_app. cbn [fold_left spine]. rewrite IH, <- app_assoc by auto. reflexivity.
Qed.

Lemma rewrite_fold : forall st off es h, rewrite_vars st off (fold_left TApply es h) =
  fold_left TApply (map (rewrite_vars st off) es) (rewrite_vars st off h).
Proof. intros st off. induction es; intros h; cbn; auto. rewrite IHes. reflexivity. Qed.

Lemma rewrite_application : forall st off h, is_application (rewrite_vars st off h) = is_application h.
Proof. destruct h; reflexivity. Qed.

Lemma wf_fold : forall ns na bs es h, wf ns na bs (fold_left TApply es h) = true ->
  wf ns na bs h = true /\ forallb (wf ns na bs) es = true.
Proof.
  intros ns na bs. induction es as [|e es IH]; intros h W; cbn in *; auto.
  apply IH in W. cbn in W. destruct W as [W1 W2]. apply andb_true_iff in W1. destruct W1 as [W1 W3]. rewrite W3, W2. auto.
Qed.

Lemma forallb_rev : forall {A} (p : A -> bool) l, forallb p (rev l) = forallb p l.
Proof. intros A p. induction l; cbn; auto. rewrite forallb_app, IHl. cbn. rewrite andb_true_r, andb_comm. reflexivity. Qed.

Lemma fold_left_apply : forall es h, es <> [] -> exists f a, fold_left TApply es h = TApply f a.
Proof. intros es. destruct es as [|e es] using rev_ind; intros h N; [congruence|]. rewrite fold_left_app. cbn. eauto. Qed.

Lemma F2_rev : forall {A B} (R : A -> B -> Prop) l l', Forall2 R l l' -> Forall2 R (rev l) (rev l').
Proof. induction 1; cbn; auto. apply Forall2_app; auto. Qed.

Lemma seq_refs : forall (w : estore) n l, map (@Some eval_val) (map VRef (seq l n)) = map (fun i => Some (VRef i)) (seq l n).
Proof. intros. rewrite map_map. reflexivity. Qed.

Lemma refs_env : forall w l n, Forall2 (oerel w) (map (fun i => Some (VRef i)) (seq l n)) (map (fun i => Some (SRef i)) (seq l n)).
Proof. intros w l n. revert l. induction n; intros l; cbn; constructor; auto. cbn. constructor. Qed.

Lemma nones_env : forall w n, Forall2 (oerel w) (repeat None n) (repeat None n).
Proof. induction n; cbn; constructor; auto. exact I. Qed.

Lemma vals_env : forall w xs ys, Forall2 (erel w) xs ys -> Forall2 (oerel w) (map Some xs) (map Some ys).
Proof. induction 1; cbn; constructor; auto. Qed.

Lemma strel_new : forall w S n, strel w S -> strel (w ++ repeat None n) (S ++ repeat None n).
Proof.
  intros w S n R. unfold strel. apply Forall2_app; [|apply nones_env].
  eapply Forall2_mono; [|exact R]. apply oerel_mono. apply grow_wle. eexists. reflexivity.
Qed.

Lemma grow_prefix : forall (w w1 w2 : estore) n, grow (w ++ repeat None n) w1 -> length w2 = length w1 ->
  (forall i, i < length w -> nth_error w2 i = nth_error w1 i) -> grow w w2.
Proof.
  intros w w1 w2 n [x ->] L H. exists (skipn (length w) w2).
  rewrite <- (firstn_skipn (length w) w2) at 1. f_equal.
  assert (G : forall (a b : estore), length a <= length b -> (forall i, i < length a -> nth_error b i = nth_error a i) -> firstn (length a) b = a).
  { clear. induction a as [|y a IH]; intros b L H; [reflexivity|]. destruct b as [|z b]; [cbn in L; lia|].
    cbn. f_equal; [specialize (H 0); cbn in H; assert (E : Some z = Some y) by (apply H; lia); congruence|].
    apply IH; [cbn in L; lia|]. intros i Hi. apply (H (S i)). cbn. lia. }
  apply G.
  - rewrite L, !app_length. lia.
  - intros i Hi. rewrite H by auto. rewrite <- app_assoc, nth_error_app1 by auto. reflexivity.
Qed.

Lemma refs_none : forall (w w1 : estore) n, grow (w ++ repeat None n) w1 -> forall i, i < n -> nth_error w1 (length w + i) = Some None.
Proof.
  intros w w1 n [x ->] i Hi. rewrite <- app_assoc, nth_error_app2 by lia. replace (length w + i - length w) with i by lia.
  rewrite nth_error_app1 by (rewrite repeat_length; lia). rewrite nth_error_repeat; auto.
Qed.

Lemma evals_length : forall ss xs env S es vs S1 c, evals ss xs env S es (Some (vs, S1)) c -> length vs = length es.
Proof.
  intros ss xs env S es. revert S. induction es as [|e es IH]; intros S vs S1 c H; inversion H; subst; auto.
  cbn. f_equal. eapply IH; eauto.
Qed.

Lemma ev_list_cons : forall f e es s, ev_list f (e :: es) s =
  match f e s with
  | (Ret v, s) => match ev_list f es s with LOk vs s => LOk (v :: vs) s | o => o end
  | (Tail _ _, s) => LFail Crash s
  | (o, s) => LFail o s
  end.
Proof. reflexivity. Qed.

Lemma ev_fields_some : forall f v i e es s, ev_fields f v i (Some e :: es) s =
  match f e s with
  | (Ret v1, s) => match ev_fields f v (S i) es s with LOk vs s => LOk (v1 :: vs) s | o => o end
  | (Tail _ _, s) => LFail Crash s
  | (o, s) => LFail o s
  end.
Proof. reflexivity. Qed.

Lemma ev_fields_none : forall f v i es s, ev_fields f v i (None :: es) s =
  match strict_value (refs s) v with
  | SUndef => LFail Abort s
  | SVal (VStruct fs) =>
    match nth_error fs i with
    | Some v1 => match ev_fields f v (S i) es s with LOk vs s => LOk (v1 :: vs) s | o => o end
    | None => LFail Crash s
    end
  | _ => LFail Crash s
  end.
Proof. reflexivity. Qed.

Section complete.
  Variable C : nat.
  Hypothesis calls : forall c, c <= C -> calls_ok c.

  Definition P_eval (ss xs : list sval) (senv : list (option sval)) (S : store) (e : tc) (r : result) (c : nat) : Prop :=
    c <= C -> forall exit st off statics args env bs s,
    frame (refs s) st off statics args ss xs -> Forall2 (oerel (refs s)) env senv ->
    wf (length ss) (length xs) bs e = true -> strel (refs s) S ->
    exists q m0, (forall m, m0 <= m -> ev (ecall m) statics args exit (rewrite_vars st off e) env s = q) /\
      (answers s (depth s) q r \/ (exit = true /\ tails s q r c)).

  Definition P_evals (ss xs : list sval) (senv : list (option sval)) (S : store) (es : list tc)
      (r : option (list sval * store)) (c : nat) : Prop :=
    c <= C -> forall st off statics args env bs s,
    frame (refs s) st off statics args ss xs -> Forall2 (oerel (refs s)) env senv ->
    forallb (wf (length ss) (length xs) bs) es = true -> strel (refs s) S ->
    exists q m0, (forall m, m0 <= m ->
        ev_list (fun e s => ev (ecall m) statics args false e env s) (map (rewrite_vars st off) es) s = q) /\
      answersL s q r.

  Definition P_copies (ss xs : list sval) (senv : list (option sval)) (S : store) (v : sval) (i : nat) (es : list (option tc))
      (r : option (list sval * store)) (c : nat) : Prop :=
    c <= C -> forall st off statics args env bs s v',
    frame (refs s) st off statics args ss xs -> Forall2 (oerel (refs s)) env senv ->
    forallb (fun o => match o with Some e => wf (length ss) (length xs) bs e | None => true end) es = true -> strel (refs s) S ->
    erel (refs s) v' v ->
    exists q m0, (forall m, m0 <= m ->
        ev_fields (fun e s => ev (ecall m) statics args false e env s) v' i (map (option_map (rewrite_vars st off)) es) s = q) /\
      answersL s q r.

  (** Using the induction hypotheses. *)
  Lemma sub_ret : forall ss xs senv S e v S1 c, P_eval ss xs senv S e (Some (v, S1)) c -> c <= C ->
    forall st off statics args env bs s, frame (refs s) st off statics args ss xs -> Forall2 (oerel (refs s)) env senv ->
    wf (length ss) (length xs) bs e = true -> strel (refs s) S ->
    exists v' s' m0, (forall m, m0 <= m -> ev (ecall m) statics args false (rewrite_vars st off e) env s = (Ret v', s')) /\
      erel (refs s') v' v /\ strel (refs s') S1 /\ grow (refs s) (refs s') /\ depth s' = depth s.
  Proof.
    intros ss xs senv S e v S1 c H L st off statics args env bs s Fr Fe W R.
    destruct (H L false st off statics args env bs s Fr Fe W R) as [q [m0 [E [A|[A _]]]]]; [|discriminate].
    destruct A as [v' [s' [-> A]]]. exists v', s', m0. auto.
  Qed.

  Lemma sub_abort : forall ss xs senv S e c, P_eval ss xs senv S e None c -> c <= C ->
    forall st off statics args env bs s, frame (refs s) st off statics args ss xs -> Forall2 (oerel (refs s)) env senv ->
    wf (length ss) (length xs) bs e = true -> strel (refs s) S ->
    exists s' m0, (forall m, m0 <= m -> ev (ecall m) statics args false (rewrite_vars st off e) env s = (Abort, s')) /\ depth s' = depth s.
  Proof.
    intros ss xs senv S e c H L st off statics args env bs s Fr Fe W R.
    destruct (H L false st off statics args env bs s Fr Fe W R) as [q [m0 [E [A|[A _]]]]]; [|discriminate].
    destruct A as [s' [-> A]]. exists s', m0. auto.
  Qed.

  Lemma answers_later : forall s s1 d q r, grow (refs s) (refs s1) -> answers s1 d q r -> answers s d q r.
  Proof.
    intros s s1 d q [[v S']|] G A; auto. destruct A as [v' [s' [A1 [A2 [A3 [A4 A5]]]]]].
    exists v', s'. repeat split; auto. eapply grow_trans; eauto.
  Qed.

  Lemma tails_later : forall s s1 q r c c', grow (refs s) (refs s1) -> depth s1 = depth s -> c <= c' -> tails s1 q r c -> tails s q r c'.
  Proof.
    intros s s1 q r c c' G D L [f' [ys' [s' [f [ys [S' [ss [b [c0 [A1 [A2 [A3 [A4 [A5 [A6 [A7 [A8 [A9 A10]]]]]]]]]]]]]]]]]].
    exists f', ys', s', f, ys, S', ss, b, c0. split; auto. split; auto. split; auto. split; auto.
    split; [eapply grow_trans; eauto|]. split; [congruence|]. split; auto. split; auto. split; auto. lia.
  Qed.

  Lemma both_later : forall (exit : bool) s s1 q r c c', grow (refs s) (refs s1) -> depth s1 = depth s -> c <= c' ->
    answers s1 (depth s1) q r \/ (exit = true /\ tails s1 q r c) ->
    answers s (depth s) q r \/ (exit = true /\ tails s q r c').
  Proof.
    intros exit s s1 q r c c' G D L [A|[A B]].
    - left. rewrite <- D. eapply answers_later; eauto.
    - right. split; auto. eapply tails_later; eauto.
  Qed.

  Ltac andbs := repeat match goal with H : _ && _ = true |- _ => apply andb_true_iff in H; destruct H end.
  Ltac lev := intros m Hm; cbn [rewrite_vars ev].

  Lemma let_common : forall ss xs senv S (rec : bool) bs0 b vs S1 S2 r c2
      (senv1 : list (option sval)) (St : store) c1,
    P_evals ss xs (senv ++ senv1) St bs0 (Some (vs, S1)) c1 -> c1 <= C -> length vs = length bs0 ->
    P_eval ss xs (senv ++ map Some vs) S2 b r c2 -> c2 <= C ->
    St = S ++ (if rec then repeat None (length bs0) else []) ->
    senv1 = (if rec then map (fun i => Some (SRef i)) (seq (length S) (length bs0)) else repeat None (length bs0)) ->
    (if rec then ties S1 (length S) vs (Some S2) else S2 = S1) ->
    forall exit st off statics args env bs s,
    frame (refs s) st off statics args ss xs -> Forall2 (oerel (refs s)) env senv ->
    wf (length ss) (length xs) bs (TLet rec bs0 b) = true -> strel (refs s) S ->
    exists q m0, (forall m, m0 <= m -> ev (ecall m) statics args exit (rewrite_vars st off (TLet rec bs0 b)) env s = q) /\
      (answers s (depth s) q r \/ (exit = true /\ tails s q r (c1 + c2))).
  Proof.
    intros ss xs senv S rec bs0 b vs S1 S2 r c2 senv1 St c1 H1 L1 Lv H2 L2 -> -> HT exit st off statics args env bs s Fr Fe W R.
    cbn in W. andbs.
    set (n := length bs0) in *.
    set (sa := if rec then mk_st (refs s ++ repeat None n) (depth s) (prof s) else s).
    set (rs := if rec then map (@VRef tc) (seq (length (refs s)) n) else []).
    assert (Ra : refs sa = refs s ++ (if rec then repeat None n else [])) by (unfold sa; destruct rec; cbn; auto; rewrite app_nil_r; auto).
    assert (Wa : wle (refs s) (refs sa)) by (rewrite Ra; apply grow_wle; eexists; reflexivity).
    assert (LS : length S = length (refs s)) by (symmetry; apply (F2_len _ _ _ R)).
    destruct (H1 L1 st off statics args (env ++ (if rec then map Some rs else repeat None n)) (bs ++ repeat rec n) sa) as [q1 [m1 [E1 A1]]].
    { eapply frame_mono; eauto. }
    { apply Forall2_app; [eapply envrel_mono; eauto|]. unfold rs. destruct rec; [rewrite map_map, LS; apply refs_env|apply nones_env]. }
    { auto. }
    { rewrite Ra. destruct rec; [apply strel_new; auto|]. rewrite !app_nil_r. auto. }
    destruct A1 as [ds [s1 [-> [D1 [D2 [D3 D4]]]]]].
    assert (Ex : exists s2, fst (assign_refs rs ds s1) = Some (Some s2) /\ strel (refs s2) S2 /\ wle (refs s1) (refs s2) /\ depth s2 = depth s1 /\
                 grow (refs s) (refs s2)).
    { destruct rec.
      - assert (Ld : length ds = n) by (rewrite (F2_len _ _ _ D1); auto).
        pose proof (ties_rel _ _ _ _ HT s1 ds D2 D1) as T. rewrite Ra in D3. cbn iota in D3.
        assert (Hn : forall i, i < length vs -> nth_error (refs s1) (length S + i) = Some None).
        { intros i Hi. rewrite LS. apply (refs_none _ _ n D3). lia. }
        specialize (T Hn). cbn iota in T. destruct T as [s2 [T1 [T2 [T3 [T4 [T5 T6]]]]]].
        exists s2. rewrite LS, Ld in T1. split; auto. split; auto. split; auto. split; auto. rewrite LS in T6.
        eapply grow_prefix; eauto.
      - subst S2. exists s1. cbn. split; auto. split; auto. split; [apply wle_refl|]. split; auto. }
    destruct Ex as [s2 [As [R2 [W2 [Dp2 G2]]]]].
    destruct (assign_refs rs ds s1) as [o sx] eqn:Eas. cbn in As. subst o.
    destruct (H2 L2 exit st off statics args (env ++ map Some ds) (bs ++ repeat true n) s2) as [q2 [m2 [E2 A2]]]; auto.
    { eapply frame_mono; [|exact Fr]. apply grow_wle; auto. }
    { apply Forall2_app; [eapply envrel_mono; [apply grow_wle; eauto|auto]|]. apply vals_env. eapply valsrel_mono; eauto. }
    exists q2, (max m1 m2). split.
    - lev. rewrite map_length. fold n.
      assert (Ea : (if rec then alloc_refs n s else ([], s)) = (rs, sa)).
      { unfold rs, sa. destruct rec; auto. rewrite alloc_refs_eq. reflexivity. }
      rewrite Ea. rewrite (E1 m) by lia. rewrite Eas. apply E2. lia.
    - eapply both_later; [exact G2| |exact (Nat.le_add_l c2 c1)|exact A2]. rewrite Dp2, D4. unfold sa. destruct rec; reflexivity.
  Qed.

  Lemma let_abort : forall ss xs senv S (rec : bool) bs0 b (senv1 : list (option sval)) (St : store) c1,
    P_evals ss xs (senv ++ senv1) St bs0 None c1 -> c1 <= C ->
    St = S ++ (if rec then repeat None (length bs0) else []) ->
    senv1 = (if rec then map (fun i => Some (SRef i)) (seq (length S) (length bs0)) else repeat None (length bs0)) ->
    forall exit st off statics args env bs s,
    frame (refs s) st off statics args ss xs -> Forall2 (oerel (refs s)) env senv ->
    wf (length ss) (length xs) bs (TLet rec bs0 b) = true -> strel (refs s) S ->
    exists q m0, (forall m, m0 <= m -> ev (ecall m) statics args exit (rewrite_vars st off (TLet rec bs0 b)) env s = q) /\
      (answers s (depth s) q None \/ (exit = true /\ tails s q None c1)).
  Proof.
    intros ss xs senv S rec bs0 b senv1 St c1 H1 L1 -> -> exit st off statics args env bs s Fr Fe W R.
    cbn in W. andbs.
    set (n := length bs0) in *.
    set (sa := if rec then mk_st (refs s ++ repeat None n) (depth s) (prof s) else s).
    set (rs := if rec then map (@VRef tc) (seq (length (refs s)) n) else []).
    assert (Ra : refs sa = refs s ++ (if rec then repeat None n else [])) by (unfold sa; destruct rec; cbn; auto; rewrite app_nil_r; auto).
    assert (Wa : wle (refs s) (refs sa)) by (rewrite Ra; apply grow_wle; eexists; reflexivity).
    assert (LS : length S = length (refs s)) by (symmetry; apply (F2_len _ _ _ R)).
    destruct (H1 L1 st off statics args (env ++ (if rec then map Some rs else repeat None n)) (bs ++ repeat rec n) sa) as [q1 [m1 [E1 A1]]].
    { eapply frame_mono; eauto. }
    { apply Forall2_app; [eapply envrel_mono; eauto|]. unfold rs. destruct rec; [rewrite map_map, LS; apply refs_env|apply nones_env]. }
    { auto. }
    { rewrite Ra. destruct rec; [apply strel_new; auto|]. rewrite !app_nil_r. auto. }
    destruct A1 as [s1 [-> D4]].
    exists (Abort, s1), m1. split.
    - lev. rewrite map_length. fold n.
      assert (Ea : (if rec then alloc_refs n s else ([], s)) = (rs, sa)).
      { unfold rs, sa. destruct rec; auto. rewrite alloc_refs_eq. reflexivity. }
      rewrite Ea. rewrite (E1 m) by lia. reflexivity.
    - left. exists s1. split; auto. rewrite D4. unfold sa. destruct rec; reflexivity.
  Qed.

  Lemma letrec_vacuous : forall ss xs senv S bs0 b vs S1 c1,
    P_evals ss xs (senv ++ map (fun i => Some (SRef i)) (seq (length S) (length bs0))) (S ++ repeat None (length bs0)) bs0 (Some (vs, S1)) c1 ->
    c1 <= C -> length vs = length bs0 -> ties S1 (length S) vs None ->
    forall exit st off statics args env bs s,
    frame (refs s) st off statics args ss xs -> Forall2 (oerel (refs s)) env senv ->
    wf (length ss) (length xs) bs (TLet true bs0 b) = true -> strel (refs s) S ->
    exists q m0, (forall m, m0 <= m -> ev (ecall m) statics args exit (rewrite_vars st off (TLet true bs0 b)) env s = q) /\
      (answers s (depth s) q None \/ (exit = true /\ tails s q None c1)).
  Proof.
    intros ss xs senv S bs0 b vs S1 c1 H1 L1 Lv HT exit st off statics args env bs s Fr Fe W R.
    cbn in W. andbs.
    set (n := length bs0) in *.
    set (sa := mk_st (refs s ++ repeat None n) (depth s) (prof s)).
    assert (Wa : wle (refs s) (refs sa)) by (apply grow_wle; eexists; reflexivity).
    assert (LS : length S = length (refs s)) by (symmetry; apply (F2_len _ _ _ R)).
    destruct (H1 L1 st off statics args (env ++ map Some (map VRef (seq (length (refs s)) n))) (bs ++ repeat true n) sa) as [q1 [m1 [E1 A1]]].
    { eapply frame_mono; eauto. }
    { apply Forall2_app; [eapply envrel_mono; eauto|]. rewrite map_map, LS. apply refs_env. }
    { auto. }
    { apply strel_new; auto. }
    destruct A1 as [ds [s1 [-> [D1 [D2 [D3 D4]]]]]].
    assert (Ld : length ds = n) by (rewrite (F2_len _ _ _ D1); auto).
    pose proof (ties_rel _ _ _ _ HT s1 ds D2 D1) as T.
    assert (Hn : forall i, i < length vs -> nth_error (refs s1) (length S + i) = Some None).
    { intros i Hi. rewrite LS. apply (refs_none _ _ n D3). lia. }
    specialize (T Hn). cbn iota in T. rewrite LS, Ld in T.
    destruct (assign_refs (map VRef (seq (length (refs s)) n)) ds s1) as [o sx] eqn:Eas. cbn in T. destruct T as [-> T].
    exists (Abort, sx), m1. split.
    - lev. rewrite map_length. fold n. rewrite alloc_refs_eq. cbn iota beta. fold sa. rewrite (E1 m) by lia. rewrite Eas. reflexivity.
    - left. exists sx. split; auto. rewrite T, D4. reflexivity.
  Qed.

  Lemma ret_answers : forall (exit : bool) s s' v' v S' c, erel (refs s') v' v -> strel (refs s') S' -> grow (refs s) (refs s') ->
    depth s' = depth s ->
    answers s (depth s) (Ret v', s') (Some (v, S')) \/ (exit = true /\ tails s (Ret v', s') (Some (v, S')) c).
  Proof. intros. left. exists v', s'. auto. Qed.

  Lemma abort_answers : forall (exit : bool) s s' c, depth s' = depth s ->
    answers s (depth s) (Abort, s') None \/ (exit = true /\ tails s (Abort, s') None c).
  Proof. intros. left. exists s'. auto. Qed.

  Ltac mono Fr Fe G :=
    let Fr' := fresh "Fr'" in let Fe' := fresh "Fe'" in
    pose proof (frame_mono _ _ (grow_wle _ _ G) _ _ _ _ _ _ Fr) as Fr';
    pose proof (envrel_mono _ _ _ _ (grow_wle _ _ G) Fe) as Fe'.

  Ltac ret H v' s' m0 E Ev Rv G D Fr Fe R :=
    let L' := fresh "L'" in
    match type of H with P_eval _ _ _ _ ?e _ ?c => assert (L' : c <= C) by lia;
      match goal with W : wf _ _ ?b e = true |- _ =>
        destruct (sub_ret _ _ _ _ _ _ _ _ H L' _ _ _ _ _ b _ Fr Fe W R) as [v' [s' [m0 [E [Ev [Rv [G D]]]]]]] end end;
    clear L'.
  Ltac abt H s' m0 E D Fr Fe R :=
    let L' := fresh "L'" in
    match type of H with P_eval _ _ _ _ ?e _ ?c => assert (L' : c <= C) by lia;
      match goal with W : wf _ _ ?b e = true |- _ =>
        destruct (sub_abort _ _ _ _ _ _ H L' _ _ _ _ _ b _ Fr Fe W R) as [s' [m0 [E D]]] end end;
    clear L'.

  Lemma apply_ok : forall ss xs senv S h es f S1 vs S2 r c1 c2 c3,
    is_application h = false -> es <> [] ->
    P_eval ss xs senv S h (Some (f, S1)) c1 -> P_evals ss xs senv S1 (rev es) (Some (vs, S2)) c2 -> length vs = length (rev es) ->
    apps S2 f (rev vs) r c3 -> P_eval ss xs senv S (fold_left TApply es h) r (c1 + c2 + c3).
  Proof.
    intros ss xs senv S h es f S1 vs S2 r c1 c2 c3 Hh Ne H1 H2 Lv H3 L exit st off statics args env bs s Fr Fe W R.
    apply wf_fold in W. destruct W as [W1 W2]. rewrite <- forallb_rev in W2.
    ret H1 f' s1 m1 E1 V1 R1 G1 D1 Fr Fe R. mono Fr Fe G1.
    destruct (H2 ltac:(lia) st off statics args env bs s1 Fr' Fe' W2 R1) as [q2 [m2 [E2 A2]]].
    destruct A2 as [vs' [s2 [-> [V2 [R2 [G2 D2]]]]]].
    assert (Vf : erel (refs s2) f' f) by (eapply erel_mono; [apply grow_wle; eauto|auto]).
    pose proof (F2_rev _ _ _ V2) as Vr.
    assert (Nr : rev vs <> []).
    { intros E. apply (f_equal (@length _)) in E. rewrite rev_length, Lv, rev_length in E. destruct es; [congruence|discriminate]. }
    assert (Nes : map (rewrite_vars st off) es <> []) by (destruct es; [congruence|discriminate]).
    assert (Ea : forall m, max m1 m2 <= m -> ev (ecall m) statics args exit (rewrite_vars st off (fold_left TApply es h)) env s =
                 apply_values (ecall m) exit f' (rev vs') s2).
    { intros m Hm. rewrite rewrite_fold. destruct (fold_left_apply (map (rewrite_vars st off) es) (rewrite_vars st off h) Nes) as [g [a Eg]].
      rewrite Eg. rewrite (ev_apply (ecall m) statics args exit g a env s (rewrite_vars st off h) (map (rewrite_vars st off) es)).
      2: { rewrite <- Eg. rewrite spine_fold, app_nil_r; auto. rewrite rewrite_application. auto. }
      rewrite E1 by lia. rewrite <- map_rev. rewrite (E2 m) by lia. reflexivity. }
    assert (G : grow (refs s) (refs s2)) by (eapply grow_trans; eauto).
    destruct exit.
    - unfold apply_values in Ea.
      remember (rev vs) as ys. destruct ys as [|y ys]; [congruence|].
      destruct (apps_inv _ _ _ _ _ _ H3) as [[ss0 [b0 [g [S3 [c4 [c5 [Ch _]]]]]]]|[[ss0 [b0 [c4 [Ch _]]]]|[U [-> ->]]]].
      + destruct (chain_strict _ _ _ _ _ R2 Vf Ch) as [fn [Sf [_ Vfn]]]; [discriminate|].
        destruct (erel_nargs _ _ _ _ Vfn) as [Na _].
        exists (Tail f' (rev vs'), s2), (max m1 m2). split.
        * intros m Hm. rewrite Ea by auto. rewrite Sf, Na. reflexivity.
        * right. split; auto. exists f', (rev vs'), s2, f, (y :: ys), S2, ss0, b0, c3. split; auto. split; auto. split; auto. split; auto. split; auto.
          split; [congruence|]. split; [discriminate|]. split; auto. split; auto. lia.
      + destruct (chain_strict _ _ _ _ _ R2 Vf Ch) as [fn [Sf [_ Vfn]]]; [discriminate|].
        destruct (erel_nargs _ _ _ _ Vfn) as [Na _].
        exists (Tail f' (rev vs'), s2), (max m1 m2). split.
        * intros m Hm. rewrite Ea by auto. rewrite Sf, Na. reflexivity.
        * right. split; auto. exists f', (rev vs'), s2, f, (y :: ys), S2, ss0, b0, c3. split; auto. split; auto. split; auto. split; auto. split; auto.
          split; [congruence|]. split; [discriminate|]. split; auto. split; auto. lia.
      + exists (Abort, s2), (max m1 m2). split.
        * intros m Hm. rewrite Ea by auto. rewrite (undefined_strict _ _ _ _ R2 Vf U). reflexivity.
        * apply abort_answers. congruence.
    - destruct (calls c3 ltac:(lia) _ _ _ _ H3 Nr s2 f' (rev vs') Vf Vr R2) as [q [m3 [E3 A3]]].
      exists q, (max (max m1 m2) m3). split.
      + intros m Hm. rewrite Ea by lia. unfold apply_values. rewrite (E3 m) by lia.
        destruct r as [[v Sv]|]; [destruct A3 as [v' [s' [-> _]]]|destruct A3 as [s' [-> _]]]; reflexivity.
      + left. replace (depth s) with (depth s2) by congruence. eapply answers_later; eauto.
  Qed.

  Lemma complete_eval : forall ss xs senv S e r c, eval ss xs senv S e r c -> P_eval ss xs senv S e r c.
  Proof.
    apply (eval_mind P_eval P_evals P_copies (fun _ _ _ _ _ => True)); auto.
    - (* type *)
      intros ss xs senv S L exit st off statics args env bs s Fr Fe W R.
      exists (Ret VType, s), 0. split; [lev; reflexivity|]. apply ret_answers; auto; [constructor|apply grow_refl].
    - (* var *)
      intros ss xs senv S v x Hx L exit st off statics args env bs s Fr Fe W R.
      destruct (lookup_rel_spec _ _ _ _ _ _ _ Fr _ _ _ _ Fe Hx) as [x' [A B]].
      exists (Ret x', s), 0. split; [lev; rewrite A; reflexivity|]. apply ret_answers; auto. apply grow_refl.
    - (* let *)
      intros ss xs senv S bs0 b vs S1 r c1 c2 HE H1 _ H2 L exit st off statics args env bs s Fr Fe W R.
      eapply (let_common ss xs senv S false); eauto; try lia; [eapply evals_length; eauto|]. rewrite app_nil_r; auto.
    - (* let abort *)
      intros ss xs senv S bs0 b c HE H1 L exit st off statics args env bs s Fr Fe W R.
      eapply (let_abort ss xs senv S false); eauto. rewrite app_nil_r; auto.
    - (* letrec *)
      intros ss xs senv S bs0 b vs S1 S2 r c1 c2 HE H1 T _ H2 L exit st off statics args env bs s Fr Fe W R.
      eapply (let_common ss xs senv S true); eauto; try lia. eapply evals_length; eauto.
    - (* letrec vacuous *)
      intros ss xs senv S bs0 b vs S1 c HE H1 T L exit st off statics args env bs s Fr Fe W R.
      eapply letrec_vacuous; eauto. eapply evals_length; eauto.
    - (* letrec abort *)
      intros ss xs senv S bs0 b c HE H1 L exit st off statics args env bs s Fr Fe W R.
      eapply (let_abort ss xs senv S true); eauto.
    - (* struct *)
      intros ss xs senv S fs vs S1 c _ H L exit st off statics args env bs s Fr Fe W R. cbn in W.
      destruct (H L st off statics args env bs s Fr Fe W R) as [q [m0 [E A]]]. destruct A as [vs' [s' [-> [A1 [A2 [A3 A4]]]]]].
      exists (Ret (VStruct vs'), s'), m0. split; [lev; rewrite (E m) by lia; reflexivity|]. apply ret_answers; auto. constructor; auto.
    - intros ss xs senv S fs c _ H L exit st off statics args env bs s Fr Fe W R. cbn in W.
      destruct (H L st off statics args env bs s Fr Fe W R) as [q [m0 [E A]]]. destruct A as [s' [-> A1]].
      exists (Abort, s'), m0. split; [lev; rewrite (E m) by lia; reflexivity|]. apply abort_answers; auto.
    - (* copy *)
      intros ss xs senv S src fs v S1 vs S2 c1 c2 _ H1 _ H2 L exit st off statics args env bs s Fr Fe W R. cbn in W. andbs.
      ret H1 v1 s1 m1 E1 V1 R1 G1 D1 Fr Fe R. mono Fr Fe G1.
      destruct (H2 ltac:(lia) st off statics args env bs s1 v1 Fr' Fe' H0 R1 V1) as [q [m2 [E A]]]. destruct A as [vs' [s' [-> [A1 [A2 [A3 A4]]]]]].
      exists (Ret (VStruct vs'), s'), (max m1 m2). split; [lev; rewrite (E1 m) by lia; rewrite (E m) by lia; reflexivity|].
      apply ret_answers; auto; [constructor; auto|eapply grow_trans; eauto|congruence].
    - intros ss xs senv S src fs v S1 c1 c2 _ H1 _ H2 L exit st off statics args env bs s Fr Fe W R. cbn in W. andbs.
      ret H1 v1 s1 m1 E1 V1 R1 G1 D1 Fr Fe R. mono Fr Fe G1.
      destruct (H2 ltac:(lia) st off statics args env bs s1 v1 Fr' Fe' H0 R1 V1) as [q [m2 [E A]]]. destruct A as [s' [-> A1]].
      exists (Abort, s'), (max m1 m2). split; [lev; rewrite (E1 m) by lia; rewrite (E m) by lia; reflexivity|].
      apply abort_answers. congruence.
    - intros ss xs senv S src fs c _ H1 L exit st off statics args env bs s Fr Fe W R. cbn in W. andbs.
      abt H1 s1 m1 E1 D1 Fr Fe R.
      exists (Abort, s1), m1. split; [lev; rewrite (E1 m) by lia; reflexivity|]. apply abort_answers. congruence.
    - (* union *)
      intros ss xs senv S t a v S1 c _ H1 L exit st off statics args env bs s Fr Fe W R. cbn in W.
      ret H1 v1 s1 m1 E1 V1 R1 G1 D1 Fr Fe R.
      exists (Ret (VUnion t v1), s1), m1. split; [lev; rewrite (E1 m) by lia; reflexivity|]. apply ret_answers; auto. constructor; auto.
    - intros ss xs senv S t a c _ H1 L exit st off statics args env bs s Fr Fe W R. cbn in W.
      abt H1 s1 m1 E1 D1 Fr Fe R.
      exists (Abort, s1), m1. split; [lev; rewrite (E1 m) by lia; reflexivity|]. apply abort_answers. congruence.
    - (* select *)
      intros ss xs senv S e nt ts d v S1 tag x b r c1 c2 _ H1 Ch Lt Ib _ H2 L exit st off statics args env bs s Fr Fe W R. cbn in W. andbs.
      ret H1 v1 s1 m1 E1 V1 R1 G1 D1 Fr Fe R. mono Fr Fe G1.
      destruct (chain_strict _ _ _ _ _ R1 V1 Ch) as [u [Su [_ Vu]]]; [discriminate|]. inversion Vu; subst.
      destruct (H2 ltac:(lia) exit st off statics args env bs s1 Fr' Fe') as [q [m2 [E2 A2]]]; auto.
      { match goal with Hf : forallb _ ts = true |- _ => rewrite forallb_forall in Hf; apply (Hf _ Ib) end. }
      exists q, (max m1 m2). split.
      + lev. rewrite (E1 m) by lia. rewrite Su. rewrite (proj2 (Nat.ltb_lt _ _) Lt). rewrite (branch_eq (fun e => ev (ecall m) statics args exit e env s1) _ tag (rewrite_vars st off) ts).
        rewrite (find_target_in tag b ts 0) by auto. apply E2. lia.
      + eapply both_later; [exact G1|exact D1|exact (Nat.le_add_l c2 c1)|exact A2].
    - intros ss xs senv S e nt ts d v S1 tag x r c1 c2 _ H1 Ch Lt Ib _ H2 L exit st off statics args env bs s Fr Fe W R. cbn in W. andbs.
      ret H1 v1 s1 m1 E1 V1 R1 G1 D1 Fr Fe R. mono Fr Fe G1.
      destruct (chain_strict _ _ _ _ _ R1 V1 Ch) as [u [Su [_ Vu]]]; [discriminate|]. inversion Vu; subst.
      destruct (H2 ltac:(lia) exit st off statics args env bs s1 Fr' Fe') as [q [m2 [E2 A2]]]; auto.
      exists q, (max m1 m2). split.
      + lev. rewrite (E1 m) by lia. rewrite Su. rewrite (proj2 (Nat.ltb_lt _ _) Lt). rewrite (branch_eq (fun e => ev (ecall m) statics args exit e env s1) _ tag (rewrite_vars st off) ts).
        rewrite (find_target_none tag ts) by auto. apply E2. lia.
      + eapply both_later; [exact G1|exact D1|exact (Nat.le_add_l c2 c1)|exact A2].
    - intros ss xs senv S e nt ts d v S1 c _ H1 U L exit st off statics args env bs s Fr Fe W R. cbn in W. andbs.
      ret H1 v1 s1 m1 E1 V1 R1 G1 D1 Fr Fe R.
      exists (Abort, s1), m1. split; [|apply abort_answers; congruence].
      lev. rewrite (E1 m) by lia. rewrite (undefined_strict _ _ _ _ R1 V1 U). reflexivity.
    - intros ss xs senv S e nt ts d c _ H1 L exit st off statics args env bs s Fr Fe W R. cbn in W. andbs.
      abt H1 s1 m1 E1 D1 Fr Fe R.
      exists (Abort, s1), m1. split; [lev; rewrite (E1 m) by lia; reflexivity|]. apply abort_answers. congruence.
    - (* field *)
      intros ss xs senv S e i v S1 fs x c _ H1 Ch Hi L exit st off statics args env bs s Fr Fe W R. cbn in W.
      ret H1 v1 s1 m1 E1 V1 R1 G1 D1 Fr Fe R.
      destruct (chain_strict _ _ _ _ _ R1 V1 Ch) as [u [Su [_ Vu]]]; [discriminate|]. inversion Vu as [us fs' Fu| | | | |]; subst.
      pose proof (F2_nth_error _ _ _ Fu i) as N. rewrite Hi in N. destruct (nth_error us i) as [x'|] eqn:Ex; [|contradiction].
      exists (Ret x', s1), m1. split; [|apply ret_answers; auto].
      lev. rewrite (E1 m) by lia. rewrite Su, Ex. reflexivity.
    - intros ss xs senv S e t v S1 x c _ H1 Ch L exit st off statics args env bs s Fr Fe W R. cbn in W.
      ret H1 v1 s1 m1 E1 V1 R1 G1 D1 Fr Fe R.
      destruct (chain_strict _ _ _ _ _ R1 V1 Ch) as [u [Su [_ Vu]]]; [discriminate|]. inversion Vu as [|t0 x' x0 Vx| | | |]; subst.
      exists (Ret x', s1), m1. split; [|apply ret_answers; auto].
      lev. rewrite (E1 m) by lia. rewrite Su, Nat.eqb_refl. reflexivity.
    - intros ss xs senv S e t v S1 t' x c _ H1 Ch Nt L exit st off statics args env bs s Fr Fe W R. cbn in W.
      ret H1 v1 s1 m1 E1 V1 R1 G1 D1 Fr Fe R.
      destruct (chain_strict _ _ _ _ _ R1 V1 Ch) as [u [Su [_ Vu]]]; [discriminate|]. inversion Vu as [|t0 x' x0 Vx| | | |]; subst.
      exists (Abort, s1), m1. split; [|apply abort_answers; congruence].
      lev. rewrite (E1 m) by lia. rewrite Su. apply Nat.eqb_neq in Nt. rewrite Nt. reflexivity.
    - intros ss xs senv S k e t v S1 c _ H1 U L exit st off statics args env bs s Fr Fe W R. cbn in W.
      ret H1 v1 s1 m1 E1 V1 R1 G1 D1 Fr Fe R.
      exists (Abort, s1), m1. split; [|apply abort_answers; congruence].
      lev. rewrite (E1 m) by lia. rewrite (undefined_strict _ _ _ _ R1 V1 U). reflexivity.
    - intros ss xs senv S k e t c _ H1 L exit st off statics args env bs s Fr Fe W R. cbn in W.
      abt H1 s1 m1 E1 D1 Fr Fe R.
      exists (Abort, s1), m1. split; [lev; rewrite (E1 m) by lia; reflexivity|]. apply abort_answers. congruence.
    - (* func *)
      intros ss xs senv S scope b vs H L exit st off statics args env bs s Fr Fe W R. cbn in W. andbs.
      destruct (lookups_rel_spec _ _ _ _ _ _ _ Fr _ _ Fe _ _ H) as [vs' [A B]].
      destruct (merge_func (map (rewrite_var st off) scope) b) as [n b'] eqn:M.
      exists (Ret (VFunc n b' 0 vs'), s), 0. split; [lev; rewrite A, M; reflexivity|]. apply ret_answers; auto; [|apply grow_refl].
      assert (Ls : length scope = length vs) by apply (F2_len _ _ _ H).
      econstructor; [auto| |rewrite <- Ls; auto|exact M]. rewrite map_length. auto.
    - (* apply *)
      intros ss xs senv S h es f S1 vs S2 r c1 c2 c3 Hh Ne _ H1 HE H2 H3 _.
      eapply apply_ok; eauto. eapply evals_length; eauto.
    - intros ss xs senv S h es f S1 c1 c2 Hh Ne _ H1 _ H2 L exit st off statics args env bs s Fr Fe W R.
      apply wf_fold in W. destruct W as [W1 W2]. rewrite <- forallb_rev in W2.
      ret H1 f' s1 m1 E1 V1 R1 G1 D1 Fr Fe R. mono Fr Fe G1.
      destruct (H2 ltac:(lia) st off statics args env bs s1 Fr' Fe' W2 R1) as [q2 [m2 [E2 A2]]].
      destruct A2 as [s2 [-> D2]].
      exists (Abort, s2), (max m1 m2). split; [|apply abort_answers; congruence].
      intros m Hm. rewrite rewrite_fold.
      assert (Nes : map (rewrite_vars st off) es <> []) by (destruct es; [congruence|discriminate]).
      destruct (fold_left_apply (map (rewrite_vars st off) es) (rewrite_vars st off h) Nes) as [g [a Eg]].
      rewrite Eg. rewrite (ev_apply (ecall m) statics args exit g a env s (rewrite_vars st off h) (map (rewrite_vars st off) es)).
      2: { rewrite <- Eg. rewrite spine_fold, app_nil_r; auto. rewrite rewrite_application. auto. }
      rewrite E1 by lia. rewrite <- map_rev. rewrite (E2 m) by lia. reflexivity.
    - intros ss xs senv S h es c Hh Ne _ H1 L exit st off statics args env bs s Fr Fe W R.
      apply wf_fold in W. destruct W as [W1 W2].
      abt H1 s1 m1 E1 D1 Fr Fe R.
      exists (Abort, s1), m1. split; [|apply abort_answers; congruence].
      intros m Hm. rewrite rewrite_fold.
      assert (Nes : map (rewrite_vars st off) es <> []) by (destruct es; [congruence|discriminate]).
      destruct (fold_left_apply (map (rewrite_vars st off) es) (rewrite_vars st off h) Nes) as [g [a Eg]].
      rewrite Eg. rewrite (ev_apply (ecall m) statics args exit g a env s (rewrite_vars st off h) (map (rewrite_vars st off) es)).
      2: { rewrite <- Eg. rewrite spine_fold, app_nil_r; auto. rewrite rewrite_application. auto. }
      rewrite E1 by lia. reflexivity.
    - (* list *)
      intros ss xs senv S fs vs S1 c _ H L exit st off statics args env bs s Fr Fe W R. cbn in W.
      destruct (H L st off statics args env bs s Fr Fe W R) as [q [m0 [E A]]]. destruct A as [vs' [s' [-> [A1 [A2 [A3 A4]]]]]].
      exists (Ret (list_value vs'), s'), m0. split; [lev; rewrite (E m) by lia; reflexivity|]. apply ret_answers; auto. apply slist_rel; auto.
    - intros ss xs senv S fs c _ H L exit st off statics args env bs s Fr Fe W R. cbn in W.
      destruct (H L st off statics args env bs s Fr Fe W R) as [q [m0 [E A]]]. destruct A as [s' [-> A1]].
      exists (Abort, s'), m0. split; [lev; rewrite (E m) by lia; reflexivity|]. apply abort_answers; auto.
    - (* literal *)
      intros ss xs senv S letters L exit st off statics args env bs s Fr Fe W R.
      exists (Ret (literal_value letters), s), 0. split; [lev; reflexivity|]. apply ret_answers; auto; [apply literal_rel|apply grow_refl].
    - (* evals *)
      intros ss xs senv S L st off statics args env bs s Fr Fe W R. exists (LOk [] s), 0. split; auto.
      exists [], s. split; auto. split; auto. split; auto. split; auto. apply grow_refl.
    - intros ss xs senv S e es v S1 vs S2 c1 c2 _ H1 _ H2 L st off statics args env bs s Fr Fe W R. cbn in W. andbs.
      ret H1 v1 s1 m1 E1 V1 R1 G1 D1 Fr Fe R. mono Fr Fe G1.
      destruct (H2 ltac:(lia) st off statics args env bs s1 Fr' Fe' H0 R1) as [q [m2 [E A]]]. destruct A as [vs' [s' [-> [A1 [A2 [A3 A4]]]]]].
      exists (LOk (v1 :: vs') s'), (max m1 m2). split.
      + intros m Hm. cbn [map]. rewrite ev_list_cons. rewrite (E1 m) by lia. rewrite (E m) by lia. reflexivity.
      + exists (v1 :: vs'), s'. split; auto. split; [constructor; auto; eapply erel_mono; [apply grow_wle; eauto|auto]|].
        split; auto. split; [eapply grow_trans; eauto|congruence].
    - intros ss xs senv S e es c _ H1 L st off statics args env bs s Fr Fe W R. cbn in W. andbs.
      abt H1 s1 m1 E1 D1 Fr Fe R.
      exists (LFail Abort s1), m1. split; [|exists s1; auto].
      intros m Hm. cbn [map]. rewrite ev_list_cons. rewrite (E1 m) by lia. reflexivity.
    - intros ss xs senv S e es v S1 c1 c2 _ H1 _ H2 L st off statics args env bs s Fr Fe W R. cbn in W. andbs.
      ret H1 v1 s1 m1 E1 V1 R1 G1 D1 Fr Fe R. mono Fr Fe G1.
      destruct (H2 ltac:(lia) st off statics args env bs s1 Fr' Fe' H0 R1) as [q [m2 [E A]]]. destruct A as [s' [-> A1]].
      exists (LFail Abort s'), (max m1 m2). split; [|exists s'; split; auto; congruence].
      intros m Hm. cbn [map]. rewrite ev_list_cons. rewrite (E1 m) by lia. rewrite (E m) by lia. reflexivity.
    - (* copies *)
      intros ss xs senv S v i L st off statics args env bs s v' Fr Fe W R V. exists (LOk [] s), 0. split; auto.
      exists [], s. split; auto. split; auto. split; auto. split; auto. apply grow_refl.
    - intros ss xs senv S v i e es x S1 vs S2 c1 c2 _ H1 _ H2 L st off statics args env bs s v' Fr Fe W R V. cbn in W. andbs.
      ret H1 v1 s1 m1 E1 V1 R1 G1 D1 Fr Fe R. mono Fr Fe G1.
      pose proof (erel_mono _ _ (grow_wle _ _ G1) _ _ V) as V'.
      destruct (H2 ltac:(lia) st off statics args env bs s1 v' Fr' Fe' H0 R1 V') as [q [m2 [E A]]]. destruct A as [vs' [s' [-> [A1 [A2 [A3 A4]]]]]].
      exists (LOk (v1 :: vs') s'), (max m1 m2). split.
      + intros m Hm. cbn [map option_map]. rewrite ev_fields_some. rewrite (E1 m) by lia. cbn [Nat.add] in E. rewrite (E m) by lia. reflexivity.
      + exists (v1 :: vs'), s'. split; auto. split; [constructor; auto; eapply erel_mono; [apply grow_wle; eauto|auto]|].
        split; auto. split; [eapply grow_trans; eauto|congruence].
    - intros ss xs senv S v i e es c _ H1 L st off statics args env bs s v' Fr Fe W R V. cbn in W. andbs.
      abt H1 s1 m1 E1 D1 Fr Fe R.
      exists (LFail Abort s1), m1. split; [|exists s1; auto].
      intros m Hm. cbn [map option_map]. rewrite ev_fields_some. rewrite (E1 m) by lia. reflexivity.
    - intros ss xs senv S v i e es x S1 c1 c2 _ H1 _ H2 L st off statics args env bs s v' Fr Fe W R V. cbn in W. andbs.
      ret H1 v1 s1 m1 E1 V1 R1 G1 D1 Fr Fe R. mono Fr Fe G1.
      pose proof (erel_mono _ _ (grow_wle _ _ G1) _ _ V) as V'.
      destruct (H2 ltac:(lia) st off statics args env bs s1 v' Fr' Fe' H0 R1 V') as [q [m2 [E A]]]. destruct A as [s' [-> A1]].
      exists (LFail Abort s'), (max m1 m2). split; [|exists s'; split; auto; congruence].
      intros m Hm. cbn [map option_map]. rewrite ev_fields_some. rewrite (E1 m) by lia. cbn [Nat.add] in E. rewrite (E m) by lia. reflexivity.
    - intros ss xs senv S v i es fs x c vs S2 Ch Hx _ H2 L st off statics args env bs s v' Fr Fe W R V. cbn in W.
      destruct (chain_strict _ _ _ _ _ R V Ch) as [u [Su [_ Vu]]]; [discriminate|]. inversion Vu as [us fs' Fu| | | | |]; subst.
      pose proof (F2_nth_error _ _ _ Fu i) as N. rewrite Hx in N. destruct (nth_error us i) as [x'|] eqn:Ex; [|contradiction].
      destruct (H2 L st off statics args env bs s v' Fr Fe W R V) as [q [m2 [E A]]]. destruct A as [vs' [s' [-> [A1 [A2 [A3 A4]]]]]].
      exists (LOk (x' :: vs') s'), m2. split.
      + intros m Hm. cbn [map option_map]. rewrite ev_fields_none. rewrite Su, Ex. cbn [Nat.add] in E. rewrite (E m) by lia. reflexivity.
      + exists (x' :: vs'), s'. split; auto. split; [constructor; auto; eapply erel_mono; [apply grow_wle; eauto|auto]|]. auto.
    - intros ss xs senv S v i es U L st off statics args env bs s v' Fr Fe W R V.
      exists (LFail Abort s), 0. split; [|exists s; auto].
      intros m Hm. cbn [map option_map]. rewrite ev_fields_none. rewrite (undefined_strict _ _ _ _ R V U). reflexivity.
    - intros ss xs senv S v i es fs x c Ch Hx _ H2 L st off statics args env bs s v' Fr Fe W R V. cbn in W.
      destruct (chain_strict _ _ _ _ _ R V Ch) as [u [Su [_ Vu]]]; [discriminate|]. inversion Vu as [us fs' Fu| | | | |]; subst.
      pose proof (F2_nth_error _ _ _ Fu i) as N. rewrite Hx in N. destruct (nth_error us i) as [x'|] eqn:Ex; [|contradiction].
      destruct (H2 L st off statics args env bs s v' Fr Fe W R V) as [q [m2 [E A]]]. destruct A as [s' [-> A1]].
      exists (LFail Abort s'), m2. split; [|exists s'; auto].
      intros m Hm. cbn [map option_map]. rewrite ev_fields_none. rewrite Su, Ex. cbn [Nat.add] in E. rewrite (E m) by lia. reflexivity.
  Qed.
End complete.
