(** * Calls in the semantics and in the reference evaluator (proof of C19, first half). *)
From Coq Require Import List Arith Lia Bool.
From Verif Require Import FuncModel FuncProps CodeModel CompileModel CompileEval CompileStatic CompileRel CompileDyn TcSpec TcRel TcComplete.
Import ListNotations.

(** A function with exactly the arguments it waits for. *)
Lemma apps_one : forall S ss b a r c, levels b = 0 -> apps S (SClosure ss b) [a] r c ->
  exists c', eval ss [a] [] S b r c' /\ c = 1 + c'.
Proof.
  intros S ss b a r c Lb H. apply apps_inv in H. pose proof (levels_function b) as Fb. rewrite Lb in Fb. cbn in Fb.
  destruct H as [[ss0 [b0 [g [S1 [c1 [c2 [Ch [Ev [A ->]]]]]]]]]|[[ss0 [b0 [c1 [Ch [Ev [-> ->]]]]]]|[U _]]].
  - apply chain_closure_inv in Ch. injection Ch as -> ->. rewrite Fb. inversion A; subst. exists c1. split; auto; lia.
  - apply chain_closure_inv in Ch. injection Ch as -> ->. rewrite Fb. exists c1. auto.
  - exfalso. eapply chain_not_undefined; [apply chain_closure|eauto].
Qed.

Lemma one_apps : forall S ss b a r c, levels b = 0 -> eval ss [a] [] S b r c -> apps S (SClosure ss b) [a] r (1 + c).
Proof.
  intros S ss b a r c Lb H. pose proof (levels_function b) as Fb. rewrite Lb in Fb. cbn in Fb.
  destruct r as [[g S1]|].
  - replace (1 + c) with ((if is_function b then 0 else 1) + c + 0) by (rewrite Fb; lia).
    eapply apps_cons; [apply chain_closure|eauto|constructor].
  - replace (1 + c) with ((if is_function b then 0 else 1) + c) by (rewrite Fb; lia).
    eapply apps_abort; [apply chain_closure|eauto].
Qed.

Lemma split_last : forall {A} (l : list A) n, length l = 1 + n -> exists ys a, l = ys ++ [a] /\ length ys = n.
Proof.
  intros A l. destruct l as [|x l] using rev_ind; intros n H; [discriminate|]. rewrite app_length in H. cbn in H.
  exists l, x. split; auto. lia.
Qed.

Lemma saturated_cost : forall S ss b xs r c, wf (length ss) 1 [] b = true -> length xs = 1 + levels b ->
  apps S (SClosure ss b) xs r c -> 1 <= c.
Proof.
  intros S ss b xs r c W L H. destruct (split_last _ _ L) as [ys [a [-> Ly]]].
  destruct (applied_some ys b ss W) as [ss' [b' A]]; [lia|]. apply (apps_applied _ _ _ _ _ A) in H.
  destruct (applied_wf _ _ _ _ _ A W) as [_ Lv]. assert (L0 : levels b' = 0) by lia.
  destruct (apps_one _ _ _ _ _ _ L0 H) as [c' [_ ->]]. lia.
Qed.

Lemma wchain_refs : forall w v x, wchain w v x -> (forall l, x <> VRef l) -> strict_value w v = SVal x.
Proof. intros. apply strict_val. auto. Qed.

Section calls.
  Variable c : nat.
  Hypothesis IHc : forall c', c' < c -> calls_ok c' /\ tails_ok c'.

  (** The result of running the function itself. *)
  Definition runs (w : estore) (fn : eval_val) (ss : list sval) (b : tc) : Prop :=
    forall c1 S xs r s xs', c1 <= c -> refs s = w -> apps S (SClosure ss b) xs r c1 -> length xs = 1 + levels b ->
    Forall2 (erel w) (firstn (1 + levels b) xs') xs -> strel w S ->
    exists q m0, (forall m, m0 <= m -> run_fn ev_run (ecall m) s fn xs' = q) /\
      (answers s (depth s) q r \/ tails s q r (c1 - 1)).

  Lemma run_func : forall w n b0 k statics ss b, erel w (VFunc n b0 k statics) (SClosure ss b) -> runs w (VFunc n b0 k statics) ss b.
  Proof.
    intros w n b0 k statics ss b V c1 S xs r s xs' L E A Lx Fx R. subst w.
    destruct (erel_nargs _ _ _ _ V) as [Na W]. cbn in Na. injection Na as ->.
    destruct (split_last _ _ Lx) as [ys [a [-> Ly]]].
    destruct (func_frame _ _ _ _ _ _ _ _ _ a ys V Fx eq_refl Ly) as [ss' [b' [st [off [Ap [Lb [Eb [Fr Lst]]]]]]]].
    apply (apps_applied _ _ _ _ _ Ap) in A. destruct (apps_one _ _ _ _ _ _ Lb A) as [c' [Ev ->]].
    destruct (applied_wf _ _ _ _ _ Ap W) as [W' _].
    assert (Hc : forall x, x <= c' -> calls_ok x) by (intros x Hx; apply IHc; lia).
    destruct (complete_eval c' Hc _ _ _ _ _ _ _ Ev (le_n _) true st off statics (firstn (1 + levels b) xs') [] [] s Fr (Forall2_nil _) W' R)
      as [q [m0 [Eq Q]]].
    exists q, m0. split.
    - intros m Hm. cbn [run_fn]. unfold ev_run. rewrite Eb. apply Eq. auto.
    - replace (1 + c' - 1) with c' by lia. destruct Q as [Q|[_ Q]]; auto.
  Qed.

  Lemma run_papp : forall w k f ys ss b ss0 b0 ys', applied ss0 b0 ys' ss b -> Forall2 (erel w) ys ys' ->
    (forall c1 S xs r s xs', c1 <= c -> refs s = w -> apps S (SClosure ss0 b0) xs r c1 -> xs <> [] ->
      Forall2 (erel w) xs' xs -> strel w S ->
      exists q m0, (forall m, m0 <= m -> ecall m s f xs' = q) /\ answers s (depth s) q r) ->
    runs w (VPapp (1 + levels b) k f ys) ss b.
  Proof.
    intros w k f ys ss b ss0 b0 ys' Ap Fy Inner c1 S xs r s xs' L E A Lx Fx R.
    destruct (Inner c1 S (ys' ++ xs) r s (ys ++ firstn (1 + levels b) xs') L E) as [q [m0 [Eq Q]]]; auto.
    - apply (apps_applied _ _ _ _ _ Ap). auto.
    - destruct xs; [discriminate|]. destruct ys'; discriminate.
    - apply Forall2_app; auto.
    - exists q, m0. split; auto.
  Qed.

  Definition after_both (tl : bool) (m : nat) (q : res tc) (us : list eval_val) : res tc :=
    if tl then after_tail _ ev_run m q us else after_call _ ev_run m q us.

  Lemma pop_ok : forall o s d, depth s = S d -> pop_with o s = (o, @mk_st tc (refs s) d (prof s)).
  Proof. intros o s d H. unfold pop_with, pop_frame. rewrite H. reflexivity. Qed.

  (** What comes after it. *)
  Lemma after_ok : forall tl s q r1 r c1 c2 us us' S1 d, 1 <= c1 -> c1 + c2 <= c -> depth s = S d ->
    answers s (depth s) q r1 \/ tails s q r1 (c1 - 1) ->
    match r1 with Some (g, S2) => S1 = S2 /\ apps S2 g us r c2 | None => r = None end ->
    Forall2 (erel (refs s)) us' us ->
    exists q' m0, (forall m, m0 <= m -> after_both tl m q us' = q') /\ answers s d q' r.
  Proof.
    intros tl s q r1 r c1 c2 us us' S1 d P L D Q A Fu. destruct Q as [Q|Q].
    - destruct r1 as [[g S2]|].
      + destruct A as [-> A]. destruct Q as [g' [s' [-> [Vg [R' [G D']]]]]]. rewrite D in D'.
        pose proof (valsrel_mono _ _ _ _ (grow_wle _ _ G) Fu) as Fu'.
        destruct us' as [|u us'].
        * inversion Fu; subst us. inversion A; subst.
          exists (Ret g', mk_st (refs s') d (prof s')), 0. split.
          -- intros m _. destruct tl; cbn; apply pop_ok; auto.
          -- exists g', (mk_st (refs s') d (prof s')). cbn. auto.
        * assert (Nu : us <> []) by (intros ->; inversion Fu).
          destruct tl.
          -- destruct (proj1 (IHc c2 ltac:(lia)) _ _ _ _ A Nu s' g' (u :: us') Vg Fu' R') as [q2 [m2 [E2 A2]]].
             destruct r as [[v Sv]|].
             ++ destruct A2 as [v' [s2 [-> [V2 [R2 [G2 D2]]]]]].
                exists (Ret v', mk_st (refs s2) d (prof s2)), m2. split.
                ** intros m Hm. unfold after_both, after_tail. unfold ecall in E2. rewrite (E2 m Hm). apply pop_ok. congruence.
                ** exists v', (mk_st (refs s2) d (prof s2)). cbn. split; auto. split; auto. split; auto. split; auto. eapply grow_trans; eauto.
             ++ destruct A2 as [s2 [-> D2]]. exists (Abort, mk_st (refs s2) d (prof s2)), m2. split.
                ** intros m Hm. unfold after_both, after_tail. unfold ecall in E2. rewrite (E2 m Hm). apply pop_ok. congruence.
                ** exists (mk_st (refs s2) d (prof s2)). auto.
          -- set (s2 := mk_st (refs s') d (prof s')).
             destruct (proj1 (IHc c2 ltac:(lia)) _ _ _ _ A Nu s2 g' (u :: us') Vg Fu' R') as [q2 [m2 [E2 A2]]].
             exists q2, m2. split.
             ++ intros m Hm. unfold after_both, after_call, pop_frame. rewrite D'. apply E2. auto.
             ++ eapply answers_later; [|exact A2]. exact G.
      + subst r. destruct Q as [s' [-> D']]. exists (Abort, mk_st (refs s') d (prof s')), 0. split.
        * intros m _. rewrite D in D'. destruct tl; cbn; apply pop_ok; auto.
        * exists (mk_st (refs s') d (prof s')). auto.
    - destruct Q as [f' [ys' [s' [f [ys [S' [ss [b [c3 [-> [Vf [Fy [R' [G [D' [Ny [Ch [Ap Lc]]]]]]]]]]]]]]]]]].
      pose proof (valsrel_mono _ _ _ _ (grow_wle _ _ G) Fu) as Fu'.
      assert (Ap2 : exists c4, c4 < c /\ apps S' f (ys ++ us) r c4).
      { destruct r1 as [[g S2]|].
        - destruct A as [_ A]. exists (c3 + c2). split; [lia|]. eapply apps_join; eauto.
        - subst r. exists c3. split; [lia|]. apply apps_join_abort. auto. }
      destruct Ap2 as [c4 [L4 Ap2]].
      assert (Nyu : ys ++ us <> []) by (destruct ys; [congruence|discriminate]).
      destruct (proj2 (IHc c4 L4) _ _ _ _ Ap2 Nyu s' f' (ys' ++ us') d ss b Vf) as [q2 [m2 [E2 A2]]]; auto.
      { apply Forall2_app; auto. }
      { congruence. }
      exists q2, m2. split.
      + intros m Hm. specialize (E2 m Hm). destruct tl; cbn; exact E2.
      + eapply answers_later; eauto.
  Qed.

  Lemma answers_log : forall s d q r e, answers s d q r -> answers s d (fst q, log e (snd q)) r.
  Proof.
    intros s d q [[v Sv]|] e H.
    - destruct H as [v' [s' [-> H]]]. exists v', (log e s'). cbn. auto.
    - destruct H as [s' [-> H]]. exists (log e s'). cbn. auto.
  Qed.

  Lemma answers_refs : forall s s2 d q r, refs s = refs s2 -> answers s d q r -> answers s2 d q r.
  Proof. intros s s2 d q [[v Sv]|] E H; cbn in *; rewrite <- ?E; auto. Qed.

  Lemma fn_ok : forall w fn ss b, erel w fn (SClosure ss b) ->
    runs w fn ss b ->
    forall c1 S xs r s fv xs', c1 <= c -> refs s = w -> apps S (SClosure ss b) xs r c1 -> xs <> [] ->
    wchain w fv fn -> Forall2 (erel w) xs' xs -> strel w S ->
    (exists q m0, (forall m, m0 <= m -> ecall m s fv xs' = q) /\ answers s (depth s) q r) /\
    (forall d, depth s = Datatypes.S d -> exists q m0, (forall m, m0 <= m -> tail_call ev_run m s fv xs' = q) /\ answers s d q r).
  Proof.
      intros w fn ss b V Run c1 S xs r s fv xs' L Ew A Nx Cf Fx R.
      subst w. destruct (erel_nargs _ _ _ _ V) as [Na W].
      assert (Sf : strict_value (refs s) fv = SVal fn) by (apply wchain_refs; [auto|eapply erel_closure_val; eauto]).
      pose proof (F2_len _ _ _ Fx) as Lx.
      destruct (Nat.lt_ge_cases (length xs) (1 + levels b)) as [Lt|Ge].
      { destruct (applied_some xs b ss W) as [ss' [b' Ap]]; [lia|].
        destruct (applied_wf _ _ _ _ _ Ap W) as [W' Lv].
        rewrite <- (app_nil_r xs) in A. apply (apps_applied _ _ _ _ _ Ap) in A. inversion A; subst.
        assert (Vp : erel (refs s) (partial_apply fn fv xs') (SClosure ss' b')).
        { unfold partial_apply. rewrite Na. econstructor; eauto. lia. }
        split.
        - exists (Ret (partial_apply fn fv xs'), s), 1. split.
          + intros m Hm. destruct m; [lia|]. unfold ecall. eapply call_eq_papp; eauto. lia.
          + exists (partial_apply fn fv xs'), s. split; auto. split; auto. split; auto. split; auto. apply grow_refl.
        - intros d D. exists (Ret (partial_apply fn fv xs'), mk_st (refs s) d (prof s)), 1. split.
          + intros m Hm. destruct m; [lia|]. rewrite (tail_eq_papp _ _ _ _ _ _ _ _ Sf Na) by lia. apply pop_ok. auto.
          + exists (partial_apply fn fv xs'), (mk_st (refs s) d (prof s)). cbn. split; auto. split; auto. split; auto. split; auto. apply grow_refl. }
      set (na := 1 + levels b) in *.
      assert (Sp : xs = firstn na xs ++ skipn na xs) by (symmetry; apply firstn_skipn).
      assert (Lf : length (firstn na xs) = na) by (rewrite firstn_length; lia).
      assert (Ex : exists r1 c2 c3 S1, apps S (SClosure ss b) (firstn na xs) r1 c2 /\ c2 + c3 <= c /\
        match r1 with Some (g, S2) => S1 = S2 /\ apps S2 g (skipn na xs) r c3 | None => r = None end).
      { rewrite Sp in A. apply apps_app in A. destruct A as [[g [S1 [c2 [c3 [A1 [A2 ->]]]]]]|[A ->]].
        - exists (Some (g, S1)), c2, c3, S1. split; auto.
        - exists None, c1, 0, S. split; auto. split; auto. lia. }
      destruct Ex as [r1 [c2 [c3 [S1 [A1 [L1 A2]]]]]].
      pose proof (saturated_cost _ _ _ _ _ _ W Lf A1) as P2.
      pose proof (F2_firstn _ na _ _ Fx) as F1. pose proof (F2_skipn _ na _ _ Fx) as F2.
      split.
      + set (s2 := enter _ fn s). assert (R2 : refs s2 = refs s) by reflexivity.
        destruct (Run c2 S (firstn na xs) r1 s2 xs' ltac:(lia) R2 A1 Lf F1 R) as [q1 [m1 [E1 Q1]]].
        destruct (after_ok false s2 q1 r1 r c2 c3 (skipn na xs) (skipn na xs') S1 (depth s)) as [q2 [m2 [E2 Q2]]]; auto; try lia.
        exists (fst q2, log PExit (snd q2)), (Datatypes.S (max m1 m2)). split.
        * intros m Hm. destruct m; [lia|]. unfold ecall. rewrite (call_eq _ _ _ _ _ _ _ _ Sf Na) by lia. fold s2. unfold ecall in E1. rewrite (E1 m) by lia.
          specialize (E2 m ltac:(lia)). cbn [after_both] in E2. rewrite E2. reflexivity.
        * apply answers_log. eapply answers_refs; eauto.
      + intros d D. set (s2 := log (PReplace (block_of fn)) s). assert (R2 : refs s2 = refs s) by reflexivity.
        destruct (Run c2 S (firstn na xs) r1 s2 xs' ltac:(lia) R2 A1 Lf F1 R) as [q1 [m1 [E1 Q1]]].
        destruct (after_ok true s2 q1 r1 r c2 c3 (skipn na xs) (skipn na xs') S1 d) as [q2 [m2 [E2 Q2]]]; auto; try lia.
        exists q2, (Datatypes.S (max m1 m2)). split.
        * intros m Hm. destruct m; [lia|]. rewrite (tail_eq _ _ _ _ _ _ _ _ Sf Na) by lia. fold s2. unfold ecall in E1. rewrite (E1 m) by lia.
          specialize (E2 m ltac:(lia)). exact E2.
        * eapply answers_refs; eauto.
  Qed.

  Lemma inner : forall w fn cl, erel w fn cl -> forall ss b, cl = SClosure ss b ->
    forall c1 S xs r s fv xs', c1 <= c -> refs s = w -> apps S cl xs r c1 -> xs <> [] ->
    wchain w fv fn -> Forall2 (erel w) xs' xs -> strel w S ->
    (exists q m0, (forall m, m0 <= m -> ecall m s fv xs' = q) /\ answers s (depth s) q r) /\
    (forall d, depth s = Datatypes.S d -> exists q m0, (forall m, m0 <= m -> tail_call ev_run m s fv xs' = q) /\ answers s d q r).
  Proof.
    intros w fn cl V. induction V as [xs0 ys0|t x y V _|n b0 k xs0 scope ss1 body F Ls W M|n k f fn0 ys ys' ss0 b0 ss1 b1 Ch V0 IH0 Ap Fy En|l|]
      ; intros ss b Ecl; inversion Ecl; subst; clear Ecl.
    - assert (V : erel w (VFunc n b0 k xs0) (SClosure ss b)) by (econstructor; eauto).
      apply fn_ok; auto. apply run_func; auto.
    - assert (V : erel w (VPapp (1 + levels b) k f ys) (SClosure ss b)) by (econstructor; eauto).
      apply fn_ok; auto. eapply run_papp; eauto. intros c1 S xs r s xs' L Ew A Nx Fx R.
      apply (IH0 ss0 b0 eq_refl c1 S xs r s f xs'); auto.
  Qed.
End calls.

Theorem complete_calls : forall c, calls_ok c /\ tails_ok c.
Proof.
  intros c. induction c as [c IHc] using lt_wf_ind.
  split; [intros S f xs r A Nx s fv xs' V F R|intros S f xs r A Nx s fv xs' d ss0 b0 V F R Ch0 D]; destruct xs as [|x xs]; try congruence.
  - destruct (apps_inv _ _ _ _ _ _ A) as [[ss [b [g [S1 [c1 [c2 [Ch _]]]]]]]|[[ss [b [c1 [Ch _]]]]|[U [-> ->]]]].
    + destruct (chain_strict _ _ _ _ _ R V Ch) as [fn [_ [Wc Vf]]]; [discriminate|]. apply (apps_closure _ _ _ _ _ _ _ _ Ch) in A.
      apply (inner c IHc _ _ _ Vf ss b eq_refl c S (x :: xs) r s fv xs'); auto.
    + destruct (chain_strict _ _ _ _ _ R V Ch) as [fn [_ [Wc Vf]]]; [discriminate|]. apply (apps_closure _ _ _ _ _ _ _ _ Ch) in A.
      apply (inner c IHc _ _ _ Vf ss b eq_refl c S (x :: xs) r s fv xs'); auto.
    + exists (Abort, s), 1. split; [|exists s; auto]. intros m Hm. destruct m; [lia|]. unfold ecall.
      rewrite call_S, (undefined_strict _ _ _ _ R V U). reflexivity.
  - destruct (chain_strict _ _ _ _ _ R V Ch0) as [fn [_ [Wc Vf]]]; [discriminate|]. apply (apps_closure _ _ _ _ _ _ _ _ Ch0) in A.
    apply (inner c IHc _ _ _ Vf ss0 b0 eq_refl c S (x :: xs) r s fv xs'); auto.
Qed.
