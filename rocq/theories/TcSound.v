(** * What the reference evaluator does, the semantics says (proof of C19, second half). *)
From Coq Require Import List Arith Lia Bool.
From Verif Require Import FuncModel FuncProps CodeModel CompileModel CompileEval CompileStatic CompileRel CompileDyn TcSpec TcRel TcComplete TcCalls.
Import ListNotations.

(** The results of the semantics in [D] explain the answer [q]. *)
Definition explained (s0 : eval_st) (q : res tc) (D : result -> nat -> Prop) : Prop :=
  match q with
  | (Ret v', s') => exists v S' c, D (Some (v, S')) c /\ erel (refs s') v' v /\ strel (refs s') S' /\ grow (refs s0) (refs s')
  | (Abort, _) => exists c, D None c
  | (Tail f' ys', s') => exists f ys S', erel (refs s') f' f /\ Forall2 (erel (refs s')) ys' ys /\ ys <> [] /\
      strel (refs s') S' /\ grow (refs s0) (refs s') /\ forall r c, apps S' f ys r c -> exists c', D r c'
  | _ => True
  end.

Definition explainedL (s0 : eval_st) (q : lres) (D : option (list sval * store) -> nat -> Prop) : Prop :=
  match q with
  | LOk vs' s' => exists vs S' c, D (Some (vs, S')) c /\ Forall2 (erel (refs s')) vs' vs /\ strel (refs s') S' /\ grow (refs s0) (refs s')
  | LFail Abort _ => exists c, D None c
  | LFail Crash _ | LFail Timeout _ => True
  | LFail _ _ => False
  end.

Definition calls_sound (call : eval_st -> eval_val -> list eval_val -> res tc) : Prop :=
  forall s fv xs' f xs S, erel (refs s) fv f -> Forall2 (erel (refs s)) xs' xs -> strel (refs s) S -> xs <> [] ->
  explained s (call s fv xs') (apps S f xs).

Lemma explained_weaken : forall s q (D D' : result -> nat -> Prop), (forall r c, D r c -> exists c', D' r c') ->
  explained s q D -> explained s q D'.
Proof.
  intros s [[v'|f' ys'| | |] s'] D D' H E; cbn in *; auto.
  - destruct E as [v [S' [c [A B]]]]. destruct (H _ _ A) as [c' A']. eauto 6.
  - destruct E as [f [ys [S' [A1 [A2 [A3 [A4 [A5 A6]]]]]]]]. exists f, ys, S'. repeat (split; auto).
    intros r c Ap. destruct (A6 _ _ Ap) as [c' Hc]. eauto.
  - destruct E as [c A]. eauto.
Qed.

Lemma explained_later : forall s s1 q D, grow (refs s) (refs s1) -> explained s1 q D -> explained s q D.
Proof.
  intros s s1 [[v'|f' ys'| | |] s'] D G E; cbn in *; auto.
  - destruct E as [v [S' [c [A [B1 [B2 B3]]]]]]. exists v, S', c. repeat (split; auto). eapply grow_trans; eauto.
  - destruct E as [f [ys [S' [A1 [A2 [A3 [A4 [A5 A6]]]]]]]]. exists f, ys, S'. repeat (split; auto). eapply grow_trans; eauto.
Qed.

Lemma wfenv_app : forall bs senv bs' senv', wfenv bs senv -> wfenv bs' senv' -> wfenv (bs ++ bs') (senv ++ senv').
Proof. intros. apply Forall2_app; auto. Qed.

Lemma wfenv_repeat : forall b (l : list (option sval)), (b = true -> Forall (fun o => o <> None) l) -> wfenv (repeat b (length l)) l.
Proof.
  intros b l H. induction l as [|o l IH]; cbn; constructor.
  - intros E. specialize (H E). inversion H; auto.
  - apply IH. intros E. specialize (H E). inversion H; auto.
Qed.

Section sound.
  Variable callE : eval_st -> eval_val -> list eval_val -> res tc.
  Hypothesis calls : calls_sound callE.

  Definition sound_expr (e : tc) : Prop := forall (exit : bool) st off statics args env bs s ss xs senv S,
    frame (refs s) st off statics args ss xs -> Forall2 (oerel (refs s)) env senv -> wfenv bs senv ->
    wf (length ss) (length xs) bs e = true -> strel (refs s) S ->
    explained s (ev callE statics args exit (rewrite_vars st off e) env s) (eval ss xs senv S e).

  Ltac andbs := repeat match goal with H : _ && _ = true |- _ => apply andb_true_iff in H; destruct H end.

  Ltac mono Fr Fe G :=
    let Fr' := fresh "Fr'" in let Fe' := fresh "Fe'" in
    pose proof (frame_mono _ _ (grow_wle _ _ G) _ _ _ _ _ _ Fr) as Fr';
    pose proof (envrel_mono _ _ _ _ (grow_wle _ _ G) Fe) as Fe'.

  Lemma sound_list : forall es, Forall sound_expr es -> forall st off statics args env bs s ss xs senv S,
    frame (refs s) st off statics args ss xs -> Forall2 (oerel (refs s)) env senv -> wfenv bs senv ->
    forallb (wf (length ss) (length xs) bs) es = true -> strel (refs s) S ->
    explainedL s (ev_list (fun e s => ev callE statics args false e env s) (map (rewrite_vars st off) es) s) (evals ss xs senv S es).
  Proof.
    induction 1 as [|e es H F IH]; intros st off statics args env bs s ss xs senv S Fr Fe We W R.
    - exists [], S, 0. split; [constructor|]. split; auto. split; auto. apply grow_refl.
    - cbn in W. andbs. cbn [map]. rewrite ev_list_cons.
      specialize (H false st off statics args env bs s ss xs senv S Fr Fe We H0 R).
      destruct (ev callE statics args false (rewrite_vars st off e) env s) as [[v'|f' ys'| | |] s1]; cbn in H |- *; auto.
      + destruct H as [v [S1 [c1 [E1 [V1 [R1 G1]]]]]]. mono Fr Fe G1.
        specialize (IH st off statics args env bs s1 ss xs senv S1 Fr' Fe' We H1 R1).
        destruct (ev_list _ (map (rewrite_vars st off) es) s1) as [vs' s2|o s2]; cbn in IH |- *.
        * destruct IH as [vs [S2 [c2 [E2 [V2 [R2 G2]]]]]]. exists (v :: vs), S2, (c1 + c2).
          split; [econstructor; eauto|]. split; [constructor; auto; eapply erel_mono; [apply grow_wle; eauto|auto]|].
          split; auto. eapply grow_trans; eauto.
        * destruct o; try contradiction; auto. destruct IH as [c2 E2]. exists (c1 + c2). eapply evals_cons_abort; eauto.
      + destruct H as [c E]. exists c. constructor. auto.
  Qed.

  Lemma sound_copies : forall es, Forall (fun o => match o with Some e => sound_expr e | None => True end) es ->
    forall st off statics args env bs s ss xs senv S v' v i,
    frame (refs s) st off statics args ss xs -> Forall2 (oerel (refs s)) env senv -> wfenv bs senv ->
    forallb (fun o => match o with Some e => wf (length ss) (length xs) bs e | None => true end) es = true -> strel (refs s) S ->
    erel (refs s) v' v ->
    explainedL s (ev_fields (fun e s => ev callE statics args false e env s) v' i (map (option_map (rewrite_vars st off)) es) s)
      (copies ss xs senv S v i es).
  Proof.
    induction 1 as [|[e|] es H F IH]; intros st off statics args env bs s ss xs senv S v' v i Fr Fe We W R V.
    - exists [], S, 0. split; [constructor|]. split; auto. split; auto. apply grow_refl.
    - cbn in W. andbs. cbn [map option_map]. rewrite ev_fields_some.
      specialize (H false st off statics args env bs s ss xs senv S Fr Fe We H0 R).
      destruct (ev callE statics args false (rewrite_vars st off e) env s) as [[x'|f' ys'| | |] s1]; cbn in H |- *; auto.
      + destruct H as [x [S1 [c1 [E1 [V1 [R1 G1]]]]]]. mono Fr Fe G1.
        pose proof (erel_mono _ _ (grow_wle _ _ G1) _ _ V) as V'.
        specialize (IH st off statics args env bs s1 ss xs senv S1 v' v (Datatypes.S i) Fr' Fe' We H1 R1 V').
        destruct (ev_fields _ v' (Datatypes.S i) (map (option_map (rewrite_vars st off)) es) s1) as [vs' s2|o s2]; cbn in IH |- *.
        * destruct IH as [vs [S2 [c2 [E2 [V2 [R2 G2]]]]]]. exists (x :: vs), S2, (c1 + c2).
          split; [eapply copies_new; eauto|]. split; [constructor; auto; eapply erel_mono; [apply grow_wle; eauto|auto]|].
          split; auto. eapply grow_trans; eauto.
        * destruct o; try contradiction; auto. destruct IH as [c2 E2]. exists (c1 + c2). eapply copies_new_rest_abort; eauto.
      + destruct H as [c E]. exists c. apply copies_new_abort. auto.
    - cbn in W. cbn [map option_map]. rewrite ev_fields_none.
      destruct (strict_value (refs s) v') as [u| |] eqn:Su; try exact I.
      + destruct u as [fs'| | | | |]; try exact I.
        destruct (strict_rel_val _ _ _ _ R V _ Su) as [sx [Ch Vs]]. inversion Vs as [us fs Fu| | | | |]; subst.
        pose proof (F2_nth_error _ _ _ Fu i) as N. destruct (nth_error fs' i) as [x'|] eqn:Ex; [|exact I].
        destruct (nth_error fs i) as [x|] eqn:Ex2; [|contradiction].
        specialize (IH st off statics args env bs s ss xs senv S v' v (Datatypes.S i) Fr Fe We W R V).
        destruct (ev_fields _ v' (Datatypes.S i) (map (option_map (rewrite_vars st off)) es) s) as [vs' s2|o s2]; cbn in IH |- *.
        * destruct IH as [vs [S2 [c2 [E2 [V2 [R2 G2]]]]]]. exists (x :: vs), S2, c2.
          split; [eapply copies_old; eauto|]. split; [constructor; auto; eapply erel_mono; [apply grow_wle; eauto|auto]|]. auto.
        * destruct o; try contradiction; auto. destruct IH as [c2 E2]. exists c2. eapply copies_old_rest_abort; eauto.
      + exists 0. apply copies_old_undefined. eapply strict_rel_undef; eauto.
  Qed.

  Lemma sound_let : forall rec bs0 b, Forall sound_expr bs0 -> sound_expr b -> sound_expr (TLet rec bs0 b).
  Proof.
    intros rec bs0 b Hbs Hb exit st off statics args env bs s ss xs senv S Fr Fe We W R.
    cbn in W. andbs. cbn [rewrite_vars ev]. rewrite map_length. cbv zeta.
    set (n := length bs0) in *.
    set (sa := if rec then mk_st (refs s ++ repeat None n) (depth s) (prof s) else s).
    set (rs := if rec then map (@VRef tc) (seq (length (refs s)) n) else []).
    assert (Ea : (if rec then alloc_refs n s else ([], s)) = (rs, sa)).
    { unfold rs, sa. destruct rec; auto. rewrite alloc_refs_eq. reflexivity. }
    rewrite Ea.
    assert (Ra : refs sa = refs s ++ (if rec then repeat None n else [])) by (unfold sa; destruct rec; cbn; auto; rewrite app_nil_r; auto).
    assert (Ga : grow (refs s) (refs sa)) by (rewrite Ra; eexists; reflexivity).
    assert (LS : length S = length (refs s)) by (symmetry; apply (F2_len _ _ _ R)).
    set (senv1 := if rec then map (fun i => Some (SRef i)) (seq (length S) n) else repeat None n).
    set (Sa := S ++ (if rec then repeat None n else [])).
    mono Fr Fe Ga.
    assert (Fe1 : Forall2 (oerel (refs sa)) (env ++ (if rec then map Some rs else repeat None n)) (senv ++ senv1)).
    { apply Forall2_app; auto. unfold rs, senv1. destruct rec; [rewrite map_map, LS; apply refs_env|apply nones_env]. }
    assert (Le1 : length senv1 = n) by (unfold senv1; destruct rec; rewrite ?map_length, ?seq_length, ?repeat_length; auto).
    assert (We1 : wfenv (bs ++ repeat rec n) (senv ++ senv1)).
    { apply wfenv_app; auto. rewrite <- Le1 at 1. apply wfenv_repeat. intros ->. unfold senv1. apply Forall_map. apply Forall_forall. discriminate. }
    assert (R1 : strel (refs sa) Sa).
    { unfold Sa. rewrite Ra. destruct rec; [apply strel_new; auto|]. rewrite !app_nil_r. auto. }
    pose proof (sound_list bs0 Hbs st off statics args _ _ sa ss xs _ Sa Fr' Fe1 We1 H R1) as L.
    destruct (ev_list _ (map (rewrite_vars st off) bs0) sa) as [ds s1|o s1]; cbn in L |- *.
    2: { destruct o; try contradiction; auto. destruct L as [c E]. exists c. unfold senv1, Sa in E. destruct rec.
         - apply eval_letrec_abort. exact E.
         - rewrite app_nil_r in E. apply eval_let_abort. exact E. }
    destruct L as [vs [S1 [c1 [E1 [V1 [R2 G1]]]]]].
    assert (Lv : length vs = n) by (eapply evals_length; eauto).
    assert (Ld : length ds = n) by (rewrite (F2_len _ _ _ V1); auto).
    assert (Hn : rec = true -> forall i, i < length vs -> nth_error (refs s1) (length S + i) = Some None).
    { intros -> i Hi. rewrite LS. rewrite Ra in G1. apply (refs_none _ _ n G1). lia. }
    destruct (assign_refs rs ds s1) as [[[s2|]|] sx] eqn:Eas; [| |exact I]; cbv beta iota.
    - assert (Ex : exists S2, (if rec then ties S1 (length S) vs (Some S2) else S2 = S1) /\ strel (refs s2) S2 /\ wle (refs s1) (refs s2) /\ grow (refs s) (refs s2)).
      { destruct rec.
        - specialize (Hn eq_refl). assert (Q : fst (assign_refs (map VRef (seq (length S) (length ds))) ds s1) = Some (Some s2)).
          { rewrite LS, Ld. fold rs. rewrite Eas. reflexivity. }
          destruct (ties_rel_back ds vs S1 (length S) s1 R2 V1 Hn _ Q) as [S2 T].
          pose proof (ties_rel _ _ _ _ T s1 ds R2 V1 Hn) as [s2' [T1 [T2 [T3 [T4 [T5 T6]]]]]].
          rewrite Q in T1. injection T1 as <-. exists S2. split; auto. split; auto. split; auto.
          rewrite Ra in G1. rewrite LS in T6. eapply grow_prefix; eauto.
        - cbn in Eas. injection Eas as <- _. exists S1. split; auto. split; auto. split; [apply wle_refl|]. exact (grow_trans _ _ _ Ga G1). }
      destruct Ex as [S2 [T [R3 [W2 G2]]]].
      pose proof (frame_mono _ _ (grow_wle _ _ G2) _ _ _ _ _ _ Fr) as Fr2.
      assert (Fe2 : Forall2 (oerel (refs s2)) (env ++ map Some ds) (senv ++ map Some vs)).
      { apply Forall2_app; [eapply envrel_mono; [apply grow_wle; eauto|auto]|]. apply vals_env. eapply valsrel_mono; eauto. }
      assert (We2 : wfenv (bs ++ repeat true n) (senv ++ map Some vs)).
      { apply wfenv_app; auto. rewrite <- Lv, <- (map_length (@Some sval)). apply wfenv_repeat. intros _. apply Forall_map. apply Forall_forall. discriminate. }
      eapply explained_later; [exact G2|].
      eapply explained_weaken; [|exact (Hb exit st off statics args _ _ s2 ss xs _ S2 Fr2 Fe2 We2 H0 R3)].
      intros r c E. exists (c1 + c). unfold senv1, Sa in E1. destruct rec.
      + eapply eval_letrec; eauto.
      + subst S2. rewrite app_nil_r in E1. eapply eval_let; eauto.
    - exists c1. destruct rec.
      + specialize (Hn eq_refl). assert (Q : fst (assign_refs (map VRef (seq (length S) (length ds))) ds s1) = Some None).
        { rewrite LS, Ld. fold rs. rewrite Eas. reflexivity. }
        pose proof (ties_rel_back ds vs S1 (length S) s1 R2 V1 Hn _ Q) as T. cbn in T.
        eapply eval_letrec_vacuous; eauto.
      + cbn in Eas. discriminate.
  Qed.

  Lemma fold_spine : forall e acc h es, spine e acc = (h, es) -> fold_left TApply acc e = fold_left TApply es h.
  Proof.
    induction e using tc_ind'; intros acc h es Sp; cbn in Sp; try (injection Sp as <- <-; reflexivity).
    rewrite <- (IHe1 _ _ _ Sp). reflexivity.
  Qed.


  (** All expressions up to some size. *)
  Lemma sound_all : forall k e, size e <= k -> sound_expr e.
  Proof.
    induction k as [|k IH]; intros e Sz; [destruct e; cbn in Sz; lia|].
    assert (IHl : forall l, sizes l <= k -> Forall sound_expr l).
    { intros l L. apply Forall_forall. intros x Hx. apply IH. clear -Hx L. induction l as [|y l IH]; [destruct Hx|].
      cbn in L. fold (sizes l) in L. destruct Hx as [->|Hx]; [lia|]. apply IH; auto. lia. }
    destruct e; cbn [size] in Sz.
    - (* type *)
      intros exit st off statics args env bs s ss xs senv S Fr Fe We W R. exists SType, S, 0. split; [constructor|].
      split; [constructor|]. split; auto. apply grow_refl.
    - (* var *)
      intros exit st off statics args env bs s ss xs senv S Fr Fe We W R. cbn [rewrite_vars ev]. cbn in W.
      destruct (slookup_def _ _ _ _ _ W We) as [x Hx]. destruct (lookup_rel_spec _ _ _ _ _ _ _ Fr _ _ _ _ Fe Hx) as [x' [A B]].
      rewrite A. exists x, S, 0. split; [constructor; auto|]. split; auto. split; auto. apply grow_refl.
    - apply sound_let; [apply IHl; unfold sizes; lia|apply IH; lia].
    - (* struct *)
      intros exit st off statics args env bs s ss xs senv S Fr Fe We W R. cbn [rewrite_vars ev]. cbn in W.
      pose proof (sound_list fields (IHl fields ltac:(unfold sizes; lia)) st off statics args env bs s ss xs senv S Fr Fe We W R) as L.
      destruct (ev_list _ (map (rewrite_vars st off) fields) s) as [vs' s1|o s1]; cbn in L |- *.
      + destruct L as [vs [S1 [c [E1 [V1 [R1 G1]]]]]]. exists (SStruct vs), S1, c. split; [econstructor; eauto|]. split; [constructor; auto|]. auto.
      + destruct o; try contradiction; auto. destruct L as [c E]. exists c. constructor; auto.
    - (* copy *)
      intros exit st off statics args env bs s ss xs senv S Fr Fe We W R. cbn [rewrite_vars ev]. cbn in W. andbs.
      assert (Hs : sound_expr e) by (apply IH; lia).
      specialize (Hs false st off statics args env bs s ss xs senv S Fr Fe We H R).
      destruct (ev callE statics args false (rewrite_vars st off e) env s) as [[v'|f' ys'| | |] s1]; cbn in Hs |- *; auto.
      + destruct Hs as [v [S1 [c1 [E1 [V1 [R1 G1]]]]]]. mono Fr Fe G1.
        assert (Hf : Forall (fun o => match o with Some e => sound_expr e | None => True end) fields).
        { apply Forall_forall. intros [x|] Hx; auto. apply IH. clear -Hx Sz.
          assert (L : fold_right (fun e n => match e with Some e => size e | None => 0 end + n) 0 fields <= k) by lia. clear Sz.
          induction fields as [|y l IH]; [destruct Hx|]. cbn in L. destruct Hx as [->|Hx]; [lia|]. apply IH; auto. lia. }
        pose proof (sound_copies fields Hf st off statics args env bs s1 ss xs senv S1 v' v 0 Fr' Fe' We H0 R1 V1) as L.
        destruct (ev_fields _ v' 0 (map (option_map (rewrite_vars st off)) fields) s1) as [vs' s2|o s2]; cbn in L |- *.
        * destruct L as [vs [S2 [c2 [E2 [V2 [R2 G2]]]]]]. exists (SStruct vs), S2, (c1 + c2). split; [econstructor; eauto|]. split; [constructor; auto|].
          split; auto. eapply grow_trans; eauto.
        * destruct o; try contradiction; auto. destruct L as [c E]. exists (c1 + c). eapply eval_copy_abort; eauto.
      + destruct Hs as [c E]. exists c. apply eval_copy_source_abort. auto.
    - (* union *)
      intros exit st off statics args env bs s ss xs senv S Fr Fe We W R. cbn [rewrite_vars ev]. cbn in W.
      assert (Hs : sound_expr e) by (apply IH; lia).
      specialize (Hs false st off statics args env bs s ss xs senv S Fr Fe We W R).
      destruct (ev callE statics args false (rewrite_vars st off e) env s) as [[v'|f' ys'| | |] s1]; cbn in Hs |- *; auto.
      + destruct Hs as [v [S1 [c1 [E1 [V1 [R1 G1]]]]]]. exists (SUnion tag v), S1, c1. split; [constructor; auto|]. split; [constructor; auto|]. auto.
      + destruct Hs as [c E]. exists c. constructor. auto.
    - (* select *)
      intros exit st off statics args env bs s ss xs senv S Fr Fe We W R. cbn [rewrite_vars ev]. cbn in W. andbs.
      assert (Hs : sound_expr e1) by (apply IH; lia).
      specialize (Hs false st off statics args env bs s ss xs senv S Fr Fe We H R).
      destruct (ev callE statics args false (rewrite_vars st off e1) env s) as [[v'|f' ys'| | |] s1]; cbn in Hs; auto; try exact I.
      2: { destruct Hs as [c E]. exists c. apply eval_select_abort. auto. }
      destruct Hs as [v [S1 [c1 [E1 [V1 [R1 G1]]]]]]. mono Fr Fe G1.
      destruct (strict_value (refs s1) v') as [u| |] eqn:Su; try exact I.
      2: { exists c1. eapply eval_select_undefined; eauto. eapply strict_rel_undef; eauto. }
      destruct u as [|tag x'| | | |]; try exact I.
      destruct (strict_rel_val _ _ _ _ R1 V1 _ Su) as [sx [Ch Vs]]. inversion Vs as [|t0 x0 x Vx| | | |]; subst.
      destruct (tag <? num_tags) eqn:Lt; [|exact I]. apply Nat.ltb_lt in Lt.
      rewrite (branch_eq (fun e => ev callE statics args exit e env s1) _ tag (rewrite_vars st off) targets).
      destruct (find_target tag targets) as [b|] eqn:Ft.
      + assert (Ib : In (tag, b) targets).
        { clear -Ft. induction targets as [|[t e] l IH]; [discriminate|]. cbn in Ft. destruct (t =? tag) eqn:E.
          - injection Ft as ->. apply Nat.eqb_eq in E. subst. left; auto.
          - right. auto. }
        assert (Hb : sound_expr b).
        { apply IH. clear -Ib Sz. assert (L : fold_right (fun p n => size (snd p) + n) 0 targets <= k) by lia. clear Sz.
          induction targets as [|y l IH]; [destruct Ib|]. cbn in L. destruct Ib as [->|Hx]; [cbn in L; lia|]. apply IH; auto. lia. }
        eapply explained_later; [exact G1|].
        assert (Wb : wf (length ss) (length xs) bs b = true).
        { match goal with Hf : forallb _ targets = true |- _ => rewrite forallb_forall in Hf; apply (Hf _ Ib) end. }
        eapply explained_weaken; [|exact (Hb exit st off statics args env bs s1 ss xs senv S1 Fr' Fe' We Wb R1)].
        intros r c E. exists (c1 + c). eapply eval_select; eauto.
      + assert (Nb : ~ In tag (map fst targets)).
        { clear -Ft. induction targets as [|[t e] l IH]; [auto|]. cbn in Ft. destruct (t =? tag) eqn:E; [discriminate|].
          cbn. intros [Eq|I0]; [subst; rewrite Nat.eqb_refl in E; discriminate|]. apply IH; auto. }
        assert (Hb : sound_expr e2) by (apply IH; lia).
        eapply explained_later; [exact G1|].
        eapply explained_weaken; [|eapply (Hb exit st off statics args env bs s1 ss xs senv S1 Fr' Fe' We); eauto].
        intros r c E. exists (c1 + c). eapply eval_select_default; eauto.
    - (* access *)
      intros exit st off statics args env bs s ss xs senv S Fr Fe We W R. cbn [rewrite_vars ev]. cbn in W.
      assert (Hs : sound_expr e) by (apply IH; lia).
      specialize (Hs false st off statics args env bs s ss xs senv S Fr Fe We W R).
      destruct (ev callE statics args false (rewrite_vars st off e) env s) as [[v'|f' ys'| | |] s1]; cbn in Hs; auto; try exact I.
      2: { destruct Hs as [c E]. exists c. apply eval_access_abort. auto. }
      destruct Hs as [v [S1 [c1 [E1 [V1 [R1 G1]]]]]].
      destruct (strict_value (refs s1) v') as [u| |] eqn:Su; try exact I.
      2: { exists c1. eapply eval_access_undefined; eauto. eapply strict_rel_undef; eauto. }
      destruct u as [fs'|t x'| | | |]; try exact I.
      + destruct is_struct; [|exact I].
        destruct (strict_rel_val _ _ _ _ R1 V1 _ Su) as [sx [Ch Vs]]. inversion Vs as [us fs Fu| | | | |]; subst.
        pose proof (F2_nth_error _ _ _ Fu tag) as N. destruct (nth_error fs' tag) as [x'|] eqn:Ex; [|exact I].
        destruct (nth_error fs tag) as [x|] eqn:Ex2; [|contradiction]. exists x, S1, c1. split; [econstructor; eauto|]. auto.
      + destruct is_struct; [exact I|].
        destruct (strict_rel_val _ _ _ _ R1 V1 _ Su) as [sx [Ch Vs]]. inversion Vs as [|t0 x0 x Vx| | | |]; subst.
        destruct (t =? tag) eqn:E.
        * apply Nat.eqb_eq in E. subst. exists x, S1, c1. split; [econstructor; eauto|]. auto.
        * apply Nat.eqb_neq in E. exists c1. eapply eval_wrong_tag; eauto.
    - (* func *)
      intros exit st off statics args env bs s ss xs senv S Fr Fe We W R. cbn [rewrite_vars ev]. cbn in W. andbs.
      destruct (slookups_def ss xs senv bs scope H We) as [vs Hv].
      destruct (lookups_rel_spec _ _ _ _ _ _ _ Fr _ _ Fe _ _ Hv) as [vs' [A B]]. rewrite A.
      destruct (merge_func (map (rewrite_var st off) scope) e) as [n b'] eqn:M.
      assert (Ls : length scope = length vs) by apply (F2_len _ _ _ Hv).
      exists (SClosure vs e), S, 0. split; [constructor; auto|]. split; [|split; [auto|apply grow_refl]].
      econstructor; [auto| |rewrite <- Ls; auto|exact M]. rewrite map_length. auto.
    - (* apply *)
      intros exit st off statics args env bs s ss xs senv S Fr Fe We W R.
      destruct (spine (TApply e1 e2) []) as [h es] eqn:Sp.
      destruct (spine_spec _ _ _ _ Sp) as [Nh [_ [Sz2 [Wsp Ln]]]]. specialize (Sz2 _ _ eq_refl). cbn [size sizes fold_right] in Sz2.
      assert (Hh : is_application h = false) by (destruct h; auto; exfalso; eapply Nh; reflexivity).
      assert (Ne : es <> []).
      { destruct es; [|discriminate]. cbn in Sp. clear -Sp. exfalso. assert (L := spine_fst e1 [e2]). rewrite Sp in L. cbn in L.
        destruct L as [_ L]. destruct (snd (spine e1 [])); discriminate. }
      assert (Ef : TApply e1 e2 = fold_left TApply es h) by exact (fold_spine _ _ _ _ Sp).
      destruct (Wsp _ _ _ W eq_refl) as [W1 W2].
      assert (Sr : spine (TApply (rewrite_vars st off e1) (rewrite_vars st off e2)) [] = (rewrite_vars st off h, map (rewrite_vars st off) es)).
      { change (TApply (rewrite_vars st off e1) (rewrite_vars st off e2)) with (rewrite_vars st off (TApply e1 e2)).
        rewrite Ef, rewrite_fold, spine_fold, app_nil_r; auto. rewrite rewrite_application. auto. }
      cbn [rewrite_vars]. rewrite (ev_apply callE statics args exit _ _ env s _ _ Sr).
      assert (Hs : sound_expr h) by (apply IH; lia).
      specialize (Hs false st off statics args env bs s ss xs senv S Fr Fe We W1 R). rewrite Ef.
      destruct (ev callE statics args false (rewrite_vars st off h) env s) as [[f'|f' ys'| | |] s1]; cbn in Hs; auto; try exact I.
      2: { destruct Hs as [c E]. exists c. apply eval_apply_func_abort; auto. }
      destruct Hs as [f [S1 [c1 [E1 [V1 [R1 G1]]]]]]. mono Fr Fe G1.
      assert (Hr : Forall sound_expr (rev es)) by (apply Forall_rev; apply IHl; lia).
      rewrite <- forallb_rev in W2. rewrite <- map_rev.
      pose proof (sound_list (rev es) Hr st off statics args env bs s1 ss xs senv S1 Fr' Fe' We W2 R1) as L.
      destruct (ev_list _ (map (rewrite_vars st off) (rev es)) s1) as [vs' s2|o s2]; cbn in L.
      2: { destruct o; try contradiction; try exact I. destruct L as [c E]. exists (c1 + c). eapply eval_apply_arg_abort; eauto. }
      destruct L as [vs [S2 [c2 [E2 [V2 [R2 G2]]]]]].
      assert (Vf : erel (refs s2) f' f) by (eapply erel_mono; [apply grow_wle; eauto|auto]).
      pose proof (F2_rev _ _ _ V2) as Vr.
      assert (Nr : rev vs <> []).
      { intros E. apply (f_equal (@length _)) in E. rewrite rev_length, (evals_length _ _ _ _ _ _ _ _ E2), rev_length in E. destruct es; [congruence|discriminate]. }
      assert (G : grow (refs s) (refs s2)) by (eapply grow_trans; eauto).
      assert (Step : forall r c, apps S2 f (rev vs) r c -> exists c', eval ss xs senv S (fold_left TApply es h) r c').
      { intros r c A. exists (c1 + c2 + c). eapply eval_apply; eauto. }
      unfold apply_values. destruct exit.
      + destruct (strict_value (refs s2) f') as [fn| |] eqn:Sf; try exact I.
        * destruct (num_args_of fn) as [na|]; [|exact I]. exists f, (rev vs), S2. repeat (split; auto).
        * apply (Step None 0). remember (rev vs) as l. destruct l; [congruence|]. apply apps_undefined. eapply strict_rel_undef; eauto.
      + pose proof (calls s2 f' (rev vs') f (rev vs) S2 Vf Vr R2 Nr) as Cs.
        destruct (callE s2 f' (rev vs')) as [[v'|g' ys'| | |] s3]; try exact I.
        * eapply explained_later; [exact G|]. eapply explained_weaken; [exact Step|exact Cs].
        * eapply explained_later; [exact G|]. eapply explained_weaken; [exact Step|exact Cs].
    - (* list *)
      intros exit st off statics args env bs s ss xs senv S Fr Fe We W R. cbn [rewrite_vars ev]. cbn in W.
      pose proof (sound_list fields (IHl fields ltac:(unfold sizes; lia)) st off statics args env bs s ss xs senv S Fr Fe We W R) as L.
      destruct (ev_list _ (map (rewrite_vars st off) fields) s) as [vs' s1|o s1]; cbn in L |- *.
      + destruct L as [vs [S1 [c [E1 [V1 [R1 G1]]]]]]. exists (slist vs), S1, c. split; [econstructor; eauto|]. split; [apply slist_rel; auto|]. auto.
      + destruct o; try contradiction; auto. destruct L as [c E]. exists c. constructor; auto.
    - (* literal *)
      intros exit st off statics args env bs s ss xs senv S Fr Fe We W R. eexists. exists S, 0. split; [constructor|].
      split; [apply literal_rel|]. split; auto. apply grow_refl.
  Qed.
End sound.

(** ** Calls *)
Lemma explained_pop : forall s o s2 D, explained s (o, s2) D -> explained s (pop_with o s2) D.
Proof. intros s o s2 D H. unfold pop_with, pop_frame. destruct (depth s2); [exact I|]. destruct o; exact H. Qed.

Lemma explained_log : forall s q e D, explained s q D -> explained s (fst q, log e (snd q)) D.
Proof. intros s [[v'|f' ys'| | |] s'] e D H; exact H. Qed.

Lemma explained_refs : forall s s2 q D, refs s = refs s2 -> explained s q D -> explained s2 q D.
Proof. intros s s2 [[v'|f' ys'| | |] s'] D E H; cbn in *; rewrite <- ?E; auto. Qed.


(** Calls of a value that stands for a function. *)
Definition fn_sound (call : eval_st -> eval_val -> list eval_val -> res tc) : Prop :=
  forall s fv fn ss b xs' xs S, wchain (refs s) fv fn -> erel (refs s) fn (SClosure ss b) -> Forall2 (erel (refs s)) xs' xs ->
  strel (refs s) S -> xs <> [] -> explained s (call s fv xs') (apps S (SClosure ss b) xs).

Section calls_sound.
  Variable m : nat.
  Hypothesis Fc : fn_sound (ecall m).
  Hypothesis IHc : calls_sound (ecall m).
  Hypothesis IHt : calls_sound (tail_call ev_run m).

  Lemma after_sound : forall tl s q S f xs us us', xs <> [] -> explained s q (apps S f xs) -> Forall2 (erel (refs s)) us' us ->
    explained s (after_both tl m q us') (apps S f (xs ++ us)).
  Proof.
    intros tl s [[v'|g' ys'| | |] s'] S f xs us us' Nx E Fu; try (destruct tl; exact I).
    - destruct E as [v [S' [c [A [V [R G]]]]]]. pose proof (valsrel_mono _ _ _ _ (grow_wle _ _ G) Fu) as Fu'.
      destruct us' as [|u us'].
      + inversion Fu; subst us. rewrite app_nil_r.
        assert (X : explained s (Ret v', s') (apps S f xs)) by (exists v, S', c; auto).
        destruct tl; cbn [after_both]; apply explained_pop; exact X.
      + assert (Nu : us <> []) by (intros ->; inversion Fu).
        assert (W : forall r c2, apps S' v us r c2 -> exists c', apps S f (xs ++ us) r c').
        { intros r c2 A2. exists (c + c2). eapply apps_join; eauto. }
        destruct tl; cbn [after_both].
        * assert (X : explained s (ecall m s' v' (u :: us')) (apps S f (xs ++ us))).
          { eapply explained_later; [exact G|]. eapply explained_weaken; [exact W|]. apply IHc; auto. }
          unfold after_tail. fold (ecall m s' v' (u :: us')).
          destruct (ecall m s' v' (u :: us')) as [[r'|? ?| | |] s3]; try exact I; try exact X; apply explained_pop; exact X.
        * unfold after_call. unfold pop_frame. destruct (depth s') as [|d]; [exact I|].
          eapply explained_later; [exact G|]. eapply explained_weaken; [exact W|].
          apply (explained_refs (mk_st (refs s') d (prof s'))); [reflexivity|]. apply IHc; auto.
    - destruct E as [g [ys [S' [V [Fy [Ny [R [G A]]]]]]]]. pose proof (valsrel_mono _ _ _ _ (grow_wle _ _ G) Fu) as Fu'.
      assert (W : forall r c, apps S' g (ys ++ us) r c -> exists c', apps S f (xs ++ us) r c').
      { intros r c Ap. apply apps_app in Ap. destruct Ap as [[g2 [S2 [c1 [c2 [A1 [A2 ->]]]]]]|[A1 ->]].
        - destruct (A _ _ A1) as [c3 A3]. exists (c3 + c2). eapply apps_join; eauto.
        - destruct (A _ _ A1) as [c3 A3]. exists c3. apply apps_join_abort; auto. }
      assert (X : explained s (tail_call ev_run m s' g' (ys' ++ us')) (apps S f (xs ++ us))).
      { eapply explained_later; [exact G|]. eapply explained_weaken; [exact W|]. apply IHt; auto.
        - apply Forall2_app; auto.
        - destruct ys; [congruence|discriminate]. }
      destruct tl; exact X.
    - destruct E as [c A]. assert (X : explained s (Abort, s') (apps S f (xs ++ us))) by (exists c; apply apps_join_abort; auto).
      destruct tl; cbn [after_both]; apply explained_pop; exact X.
  Qed.

  Lemma run_sound : forall w fn cl, erel w fn cl -> forall ss b, cl = SClosure ss b ->
    forall s S xs xs', refs s = w -> strel w S -> length xs = 1 + levels b -> Forall2 (erel w) (firstn (1 + levels b) xs') xs ->
    explained s (run_fn ev_run (ecall m) s fn xs') (apps S (SClosure ss b) xs).
  Proof.
    intros w fn cl V ss b -> s S xs xs' <- R Lx Fx. pose proof V as V0.
    inversion V as [| |n b0 k xs0 scope ss1 body F Ls W M|n k f fn0 ys ys' ss0 b0 ss1 b1 Ch V1 Ap Fy En| |]; subst.
    - destruct (erel_nargs _ _ _ _ V0) as [Na W0]. cbn in Na. injection Na as ->.
      destruct (split_last _ _ Lx) as [ys [a [-> Ly]]].
      destruct (func_frame _ _ _ _ _ _ _ _ _ a ys V0 Fx eq_refl Ly) as [ss' [b' [st [off [Ap [Lb [Eb [Fr Lst]]]]]]]].
      destruct (applied_wf _ _ _ _ _ Ap W0) as [W' _].
      cbn [run_fn]. unfold ev_run. rewrite Eb.
      eapply explained_weaken; [|exact (sound_all _ IHc _ b' (le_n _) true st off xs0 (firstn (1 + levels b) xs') [] [] s ss' [a] [] S Fr (Forall2_nil _) (Forall2_nil _) W' R)].
      intros r c E. exists (1 + c). apply (apps_applied _ _ _ _ _ Ap). apply one_apps; auto.
    - cbn [run_fn].
      eapply explained_weaken; [|apply (Fc s f fn0 ss0 b0 (ys ++ firstn (1 + levels b) xs') (ys' ++ xs) S)]; auto.
      + intros r c A. exists c. apply (apps_applied _ _ _ _ _ Ap). exact A.
      + apply Forall2_app; auto.
      + destruct xs; [discriminate|]. destruct ys'; discriminate.
  Qed.

  Lemma step_sound : fn_sound (ecall (S m)) /\ fn_sound (tail_call ev_run (S m)).
  Proof.
    assert (H : forall tl : bool, fn_sound (if tl then tail_call ev_run (S m) else ecall (S m))).
    2: { split; [apply (H false)|apply (H true)]. }
    intros tl s fv fn ss b xs' xs S0 Wc V Fx R Nx.
    destruct (erel_nargs _ _ _ _ V) as [Na W].
    assert (Sf : strict_value (refs s) fv = SVal fn) by (apply wchain_refs; [auto|eapply erel_closure_val; eauto]).
    pose proof (F2_len _ _ _ Fx) as Lx.
    destruct (Nat.lt_ge_cases (length xs) (1 + levels b)) as [Lt|Ge].
    - destruct (applied_some xs b ss W) as [ss' [b' Ap]]; [lia|].
      destruct (applied_wf _ _ _ _ _ Ap W) as [W' Lv].
      assert (Vp : erel (refs s) (partial_apply fn fv xs') (SClosure ss' b')).
      { unfold partial_apply. rewrite Na. econstructor; eauto. lia. }
      assert (X : explained s (Ret (partial_apply fn fv xs'), s) (apps S0 (SClosure ss b) xs)).
      { exists (SClosure ss' b'), S0, 0. split; [|split; [auto|split; [auto|apply grow_refl]]].
        rewrite <- (app_nil_r xs). apply (apps_applied _ _ _ _ _ Ap). constructor. }
      destruct tl.
      + rewrite (tail_eq_papp _ _ _ _ _ _ _ _ Sf Na) by lia. apply explained_pop. exact X.
      + unfold ecall. rewrite (call_eq_papp _ _ _ _ _ _ _ _ Sf Na) by lia. exact X.
    - set (na := 1 + levels b) in *.
      assert (Sp : xs = firstn na xs ++ skipn na xs) by (symmetry; apply firstn_skipn).
      assert (Lf : length (firstn na xs) = na) by (rewrite firstn_length; lia).
      assert (Nf : firstn na xs <> []) by (intros E; rewrite E in Lf; discriminate).
      pose proof (F2_firstn _ na _ _ Fx) as F1. pose proof (F2_skipn _ na _ _ Fx) as F2.
      rewrite Sp. destruct tl.
      + rewrite (tail_eq _ _ _ _ _ _ _ _ Sf Na) by lia.
        set (s2 := log (PReplace (block_of fn)) s). apply (explained_refs s2); [reflexivity|].
        apply (after_sound true); auto. apply (run_sound (refs s) fn _ V ss b eq_refl); auto.
      + unfold ecall at 1. rewrite (call_eq _ _ _ _ _ _ _ _ Sf Na) by lia. apply explained_log.
        set (s2 := enter _ fn s). apply (explained_refs s2); [reflexivity|].
        apply (after_sound false); auto. apply (run_sound (refs s) fn _ V ss b eq_refl); auto.
  Qed.
End calls_sound.

Lemma fn_calls : forall call, (forall s fv xs' , strict_value (refs s) fv = SBad -> fst (call s fv xs') = Crash \/ fst (call s fv xs') = Timeout) ->
  (forall s fv xs', strict_value (refs s) fv = SUndef -> call s fv xs' = (Abort, s) \/ fst (call s fv xs') = Crash \/ fst (call s fv xs') = Timeout) ->
  (forall s fv fn xs', strict_value (refs s) fv = SVal fn -> num_args_of fn = None -> fst (call s fv xs') = Crash \/ fst (call s fv xs') = Timeout) ->
  fn_sound call -> calls_sound call.
Proof.
  intros call H1 H2 H3 F s fv xs' f xs S V Fx R Nx.
  assert (X : forall q D, fst q = Crash \/ fst q = Timeout -> explained s q D).
  { intros [o s'] D [E|E]; cbn in E; subst o; exact I. }
  destruct (strict_value (refs s) fv) as [fn| |] eqn:E.
  - destruct (num_args_of fn) as [na|] eqn:Na; [|apply X; eapply H3; eauto].
    destruct (strict_rel_val _ _ _ _ R V _ E) as [sx [Ch Vs]]. apply strict_val in E. destruct E as [Wc _].
    assert (Ex : exists ss b, sx = SClosure ss b) by (inversion Vs; subst; cbn in Na; try discriminate; eauto).
    destruct Ex as [ss [b ->]].
    eapply explained_weaken; [|apply (F s fv fn ss b xs' xs S); auto].
    intros r c A. exists c. destruct xs; [congruence|]. apply (apps_closure _ _ _ _ _ _ _ _ Ch). exact A.
  - destruct (H2 _ _ xs' E) as [->|E2]; [|auto]. exists 0. destruct xs; [congruence|]. apply apps_undefined. eapply strict_rel_undef; eauto.
  - auto.
Qed.

Theorem sound_calls : forall m, (fn_sound (ecall m) /\ fn_sound (tail_call ev_run m)) /\ calls_sound (ecall m) /\ calls_sound (tail_call ev_run m).
Proof.
  induction m as [|m [[F1 F2] [C1 C2]]].
  - repeat split; repeat intro; exact I.
  - destruct (step_sound m F1 C1 C2) as [G1 G2]. split; auto. split; apply fn_calls; auto; intros s fv.
    + intros xs' E. unfold ecall. rewrite call_S, E. auto.
    + intros xs' E. unfold ecall. rewrite call_S, E. auto.
    + intros fn xs' E Na. unfold ecall. rewrite call_S, E, Na. auto.
    + intros xs' E. rewrite tail_call_S, E. auto.
    + intros xs' E. rewrite tail_call_S, E. auto.
    + intros fn xs' E Na. rewrite tail_call_S, E, Na. auto.
Qed.
