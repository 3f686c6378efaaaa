(** * Compiling an expression: the compiler succeeds, its bookkeeping adds up, and the code
      does what the reference evaluator does. *)
From Coq Require Import List Arith Lia Bool.
From Verif Require Import FuncModel CodeModel CodeProps CompileModel CompileEval CompileStatic CompileRel.
Import ListNotations.

Definition pref (s s' : cs) : Prop := exists seg, bare s' = bare s ++ seg.

Lemma pref_refl : forall s, pref s s.
Proof. intros s. exists []. rewrite app_nil_r. reflexivity. Qed.
Lemma pref_trans : forall s1 s2 s3, pref s1 s2 -> pref s2 s3 -> pref s1 s3.
Proof. intros s1 s2 s3 [a H] [b H']. exists (a ++ b). rewrite H', H, app_assoc. reflexivity. Qed.
Lemma pref_ext : forall s s', ext s s' -> pref s s'.
Proof. intros s s' E. apply (e_code _ _ E). Qed.
Lemma pref_instrs : forall s s', instrs s' = instrs s -> pref s s'.
Proof. intros s s' E. exists []. unfold bare. rewrite E, app_nil_r. reflexivity. Qed.
Lemma pref_len : forall s s', pref s s' -> length (bare s) <= length (bare s').
Proof. intros s s' [a H]. rewrite H, app_length. lia. Qed.
Lemma pref_nth : forall s s' pc, pref s s' -> pc < length (bare s) -> nth_error (bare s') pc = nth_error (bare s) pc.
Proof. intros s s' pc [a H] L. rewrite H. apply nth_error_app1. auto. Qed.

Definition mono (s s' : cs) : Prop := forall v, cnt s v <= cnt s' v.

(** What compiling an expression with result [r] does to the bookkeeping. *)
Record static (s s' : cs) (r : option var) : Prop := {
  x_ext : ext s s';
  x_cnt : forall v, cnt s' v = cnt s v + occ v [r];
  x_range : forall v, r = Some v -> inrange s' v }.

Lemma static_mono : forall s s' r, static s s' r -> mono s s'.
Proof. intros s s' r H v. rewrite (x_cnt _ _ _ H). lia. Qed.

Lemma static_inv : forall s s' r, static s s' r -> inv s -> inv s'.
Proof. intros s s' r H. apply inv_ext; [apply (x_ext _ _ _ H)|apply (static_mono _ _ _ H)]. Qed.

Definition noval (o : out tc) : Prop := (forall v, o <> Ret v) /\ (forall f a, o <> Tail f a).

Section dyn.
  Variables (callM : cst -> cval -> list cval -> cres) (callE : eval_st -> eval_val -> list eval_val -> res tc).
  Hypothesis Hcall : forall s t f g xs ys, srel s t -> vrel f g -> Forall2 vrel xs ys ->
    rrel (callM s f xs) (callE t g ys).
  Variables (blk : nat) (stM argM : list cval) (stE argE : list eval_val).
  Hypothesis Hst : Forall2 vrel stM stE.
  Hypothesis Harg : Forall2 vrel argM argE.
  Variable I : list (list prof_op * instr).

  Notation get := (get stM argM).
  Notation gets := (gets stM argM).
  Notation steps := (steps callM blk stM argM I).
  Notation stops := (stops callM blk stM argM I).
  Notation exec := (exec callM blk stM argM).
  Notation ev := (ev callE stE argE).

  Definition agree (s s' : cs) : Prop := forall pc, length (bare s) <= pc < length (bare s') ->
    nth_error (map snd I) pc = nth_error (bare s') pc.

  Lemma agree_sub : forall s s1 s2 s', agree s s' -> pref s s1 -> pref s2 s' -> agree s1 s2.
  Proof.
    intros s s1 s2 s' A P1 P2 pc L. rewrite A.
    - apply pref_nth; auto. lia.
    - pose proof (pref_len _ _ P1). pose proof (pref_len _ _ P2). lia.
  Qed.

  Lemma agree_at : forall s s' pc i, agree s s' -> length (bare s) <= pc -> nth_error (bare s') pc = Some i ->
    exists ops, nth_error I pc = Some (ops, i).
  Proof.
    intros s s' pc i A L H. assert (pc < length (bare s')) by (apply nth_error_Some; congruence).
    rewrite <- A in H by lia. rewrite nth_error_map in H. destruct (nth_error I pc) as [[ops j]|]; cbn in H; try discriminate.
    injection H as ->. eauto.
  Qed.

  Definition lrel (l : regs) (ov : option var) (ox : option eval_val) : Prop :=
    match ov, ox with
    | Some v, Some x => exists y, get l v = Some y /\ vrel y x
    | None, None => True
    | _, _ => False
    end.
  Definition vrels (l : regs) (vs : list (option var)) (env : list (option eval_val)) : Prop := Forall2 (lrel l) vs env.

  Definition pres (s : cs) (l l' : regs) : Prop :=
    length l' = length l /\ forall i, 0 < cnt s (Local i) -> nth_error l' i = nth_error l i.

  Lemma pres_refl : forall s l, pres s l l.
  Proof. split; auto. Qed.
  Lemma pres_trans : forall s s1 l l1 l2, mono s s1 -> pres s l l1 -> pres s1 l1 l2 -> pres s l l2.
  Proof.
    intros s s1 l l1 l2 M [A1 A2] [B1 B2]. split; [congruence|]. intros i C. rewrite B2, A2; auto.
    specialize (M (Local i)). lia.
  Qed.
  Lemma pres_get : forall s l l' v y, pres s l l' -> 0 < cnt s v -> get l v = Some y -> get l' v = Some y.
  Proof. intros s l l' [i|i|i] y [_ P] C G; cbn in *; auto. rewrite P; auto. Qed.
  Lemma pres_mono : forall s s1 l l', mono s s1 -> pres s1 l l' -> pres s l l'.
  Proof. intros s s1 l l' M [A B]. split; auto. intros i C. apply B. specialize (M (Local i)). lia. Qed.

  Lemma pres_put : forall s l d x, cnt s (Local d) = 0 -> pres s l (set_nth d x l).
  Proof.
    intros s l d x C. split; [apply set_nth_length|]. intros i Ci. rewrite nth_error_set_nth.
    destruct (i =? d) eqn:E; auto. apply Nat.eqb_eq in E. subst. lia.
  Qed.

  Lemma pres_vrels : forall s l l' vs env, pres s l l' -> (forall v, occ v vs <= cnt s v) -> vrels l vs env -> vrels l' vs env.
  Proof.
    intros s l l' vs env P C V. revert C. induction V as [|ov ox vs env H V IH]; intros C; constructor.
    - destruct ov as [v|], ox as [x|]; cbn in H |- *; auto. destruct H as [y [H1 H2]]. exists y. split; auto.
      eapply pres_get; eauto. specialize (C v). cbn in C. destruct (var_dec v v); [lia|congruence].
    - apply IH. intros v. specialize (C v). destruct ov; cbn in C; lia.
  Qed.

  Lemma pres_gets : forall s l l' vs ys, pres s l l' -> (forall v, occ v (map Some vs) <= cnt s v) ->
    gets l vs = Some ys -> gets l' vs = Some ys.
  Proof.
    intros s l l' vs. induction vs as [|v vs IH]; intros ys P C G; cbn in *; auto.
    destruct (get l v) as [y|] eqn:E; try discriminate. destruct (gets l vs) as [ys'|] eqn:F; try discriminate.
    rewrite (pres_get s l l' v y P); auto.
    - rewrite (IH ys'); auto. intros w. specialize (C w). lia.
    - specialize (C v). destruct (var_dec v v); [lia|congruence].
  Qed.

  Definition good (exit : bool) (s : cs) (pc0 pc1 : nat) (r : option var) (l : regs) (sM : cst) (q : res tc) : Prop :=
    if exit then exists o sM', stops pc0 l sM o sM' /\ outrel o (fst q) /\ srel sM' (snd q)
    else match fst q with
         | Ret x => exists v l' sM' y, r = Some v /\ steps pc0 l sM pc1 l' sM' /\ get l' v = Some y /\ vrel y x /\
                      srel sM' (snd q) /\ pres s l l'
         | Tail _ _ => False
         | o => exists o' sM', stops pc0 l sM o' sM' /\ outrel o' o /\ srel sM' (snd q)
         end.

  Definition goodL (s : cs) (pc0 pc1 : nat) (vs : list var) (l : regs) (sM : cst) (q : lres) : Prop :=
    match q with
    | LOk xs sE => exists l' sM' ys, steps pc0 l sM pc1 l' sM' /\ gets l' vs = Some ys /\ Forall2 vrel ys xs /\
                     srel sM' sE /\ pres s l l'
    | LFail o sE => noval o /\ exists o' sM', stops pc0 l sM o' sM' /\ outrel o' o /\ srel sM' sE
    end.

  Lemma good_steps : forall exit s s1 pc0 pc pc1 r l0 l s0 sM q, mono s s1 ->
    steps pc0 l0 s0 pc l sM -> pres s l0 l -> good exit s1 pc pc1 r l sM q -> good exit s pc0 pc1 r l0 s0 q.
  Proof.
    intros exit s s1 pc0 pc pc1 r l0 l s0 sM [o sE] M S P G. unfold good in *. destruct exit.
    - destruct G as [o' [sM' [G1 [G2 G3]]]]. exists o', sM'. split; auto. eapply steps_stops; eauto.
    - cbn [fst snd] in *. destruct o; auto.
      + destruct G as [w [l' [sM' [y [G1 [G2 [G3 [G4 [G5 G6]]]]]]]]]. exists w, l', sM', y.
        split; auto. split; [eapply steps_trans; eauto|]. repeat (split; auto).
        * destruct P, G6. congruence.
        * apply (pres_trans s s1 l0 l l'); auto.
      + destruct G as [o' [sM' [G1 G2]]]. exists o', sM'. split; auto. eapply steps_stops; eauto.
      + destruct G as [o' [sM' [G1 G2]]]. exists o', sM'. split; auto. eapply steps_stops; eauto.
      + destruct G as [o' [sM' [G1 G2]]]. exists o', sM'. split; auto. eapply steps_stops; eauto.
  Qed.

  Lemma good_fail : forall exit s pc0 pc1 r l sM o sE o' sM', noval o -> stops pc0 l sM o' sM' -> outrel o' o -> srel sM' sE ->
    good exit s pc0 pc1 r l sM (o, sE).
  Proof.
    intros exit s pc0 pc1 r l sM o sE o' sM' [N1 N2] S O R. unfold good. cbn [fst snd].
    destruct exit; [eauto|]. destruct o; eauto.
    - destruct (N1 v); auto.
    - destruct (N2 f args); auto.
  Qed.

  (** A sub-expression: its value or its failure. *)
  Lemma good_sub : forall s pc0 pc1 r l sM q, good false s pc0 pc1 r l sM q ->
    (exists x sE v l' sM' y, q = (Ret x, sE) /\ r = Some v /\ steps pc0 l sM pc1 l' sM' /\ get l' v = Some y /\ vrel y x /\
                   srel sM' sE /\ pres s l l') \/
    (exists o sE o' sM', q = (o, sE) /\ noval o /\ stops pc0 l sM o' sM' /\ outrel o' o /\ srel sM' sE).
  Proof.
    intros s pc0 pc1 r l sM [o sE] G. unfold good in G. cbn [fst snd] in G. destruct o.
    - left. destruct G as [w [l' [sM' [y G]]]]. exists v, sE, w, l', sM', y. auto.
    - contradiction.
    - right. destruct G as [o' [sM' G]]. exists Abort, sE, o', sM'. split; auto. split; [split; discriminate|auto].
    - right. destruct G as [o' [sM' G]]. exists Crash, sE, o', sM'. split; auto. split; [split; discriminate|auto].
    - right. destruct G as [o' [sM' G]]. exists Timeout, sE, o', sM'. split; auto. split; [split; discriminate|auto].
  Qed.

  Definition sides (s : cs) : Prop := length stM = length (srefs s) /\ length argM = length (arefs s).

  Lemma sides_ext : forall s s', ext s s' -> sides s -> sides s'.
  Proof. intros s s' E [H1 H2]. split; [rewrite (e_srefs _ _ E)|rewrite (e_arefs _ _ E)]; auto. Qed.

  Definition dynamic (exit : bool) (e : tc) (s s' : cs) (r : option var) : Prop :=
    forall l env sM sE, sides s -> agree s s' -> length (slots s') <= length l -> vrels l (vars s) env -> srel sM sE ->
    good exit s (length (bare s)) (length (bare s')) r l sM (ev exit e env sE).

  Definition spec (comp : bool -> tc -> cs -> option (option var * cs)) (exit : bool) (e : tc) : Prop :=
    forall bs s, wf (length (srefs s)) (length (arefs s)) bs e = true -> envok bs s -> inv s ->
    exists r s', comp exit e s = Some (r, s') /\ (exit = false -> exists v, r = Some v) /\
      static s s' r /\ dynamic exit e s s' r.

  Lemma refs_do_ops : forall ops s, refs (do_ops blk ops s) = refs s.
  Proof. unfold do_ops. induction ops; intros; cbn; auto. rewrite IHops. reflexivity. Qed.

  (** ** Appending an instruction that writes a new local *)
  Lemma emit_static : forall (exit : bool) (mk : nat -> instr) s1 d s2 s3, new_local s1 = (d, s2) ->
    s3 = compile_exit exit (Some (Local d)) (append_instr (mk d) s2) ->
    ext s1 s3 /\ (forall v, cnt s3 v = cnt s1 v + one (Local d) v) /\ inrange s3 (Local d) /\
    bare s3 = bare s1 ++ mk d :: (if exit then [IReturn (Local d)] else []) /\ cnt s1 (Local d) = 0.
  Proof.
    intros exit mk s1 d s2 s3 N ->. destruct (new_local_spec _ _ _ N) as [C0 [E [C [R J]]]].
    destruct (append_instr_spec (mk d) s2) as [A1 [A2 [A3 A4]]].
    destruct (compile_exit_spec exit (Some (Local d)) (append_instr (mk d) s2)) as [B1 [B2 B3]].
    assert (X : ext s2 (compile_exit exit (Some (Local d)) (append_instr (mk d) s2)))
      by (eapply ext_trans; [apply append_instr_ext|exact B2]).
    split; [|split; [|split; [|split]]]; auto.
    - eapply ext_trans; eauto.
    - intros v. rewrite (same_counts_cnt _ _ _ B1), (same_counts_cnt _ _ _ A1). apply C.
    - eapply inrange_ext; eauto.
    - assert (Hb : bare s2 = bare s1) by (unfold bare; rewrite J; reflexivity).
      unfold compile_exit. destruct exit.
      + destruct (append_instr_spec (IReturn (Local d)) (append_instr (mk d) s2)) as [D1 [D2 [D3 D4]]].
        rewrite D3, A3, Hb. rewrite <- app_assoc. reflexivity.
      + rewrite A3, Hb. reflexivity.
  Qed.

  Lemma emit_put : forall (exit : bool) (mk : nat -> instr) s d pc pc1 l sM sE x y,
    (exists ops, nth_error I pc = Some (ops, mk d)) ->
    (if exit then exists ops, nth_error I (S pc) = Some (ops, IReturn (Local d)) else pc1 = S pc) ->
    cnt s (Local d) = 0 -> d < length l -> srel sM sE -> vrel y x ->
    (forall sM', refs sM' = refs sM -> exec (mk d) pc l sM' = put (S pc) d y l sM') ->
    good exit s pc pc1 (Some (Local d)) l sM (Ret x, sE).
  Proof.
    intros exit mk s d pc pc1 l sM sE x y [ops H1] H2 C L R V X.
    specialize (X (do_ops blk ops sM) (refs_do_ops _ _)). unfold put in X.
    replace (d <? length l) with true in X by (symmetry; apply Nat.ltb_lt; auto).
    assert (G : get (set_nth d (Some y) l) (Local d) = Some y).
    { cbn. rewrite nth_error_set_nth, Nat.eqb_refl.
      replace (d <? length l) with true by (symmetry; apply Nat.ltb_lt; auto). reflexivity. }
    unfold good. cbn [fst snd]. destruct exit.
    - destruct H2 as [ops' H2]. exists (Ret y), (do_ops blk ops' (do_ops blk ops sM)). split; [|split].
      + eapply stops_step; [exact H1|exact X|lia|]. eapply stops_stop; [exact H2|].
        cbn [CodeModel.exec]. rewrite G. reflexivity.
      + constructor. auto.
      + apply do_ops_srel, do_ops_srel. auto.
    - subst pc1. exists (Local d), (set_nth d (Some y) l), (do_ops blk ops sM), y. split; auto. split; [|split; [auto|split; [auto|split; [apply do_ops_srel; auto|apply pres_put; auto]]]].
      eapply steps_step; [exact H1|exact X|lia|apply steps_refl].
  Qed.

  Lemma emit_stop : forall exit s i pc pc1 r l sM sE o o',
    (exists ops, nth_error I pc = Some (ops, i)) -> srel sM sE -> outrel o o' -> noval o' ->
    (forall sM', refs sM' = refs sM -> exec i pc l sM' = Stop o sM') ->
    good exit s pc pc1 r l sM (o', sE).
  Proof.
    intros exit s i pc pc1 r l sM sE o o' [ops H] R O N X.
    apply (good_fail _ _ _ _ _ _ _ _ _ o (do_ops blk ops sM)); auto.
    - eapply stops_stop; [exact H|]. apply X. apply refs_do_ops.
    - apply do_ops_srel. auto.
  Qed.

  (** The instructions [emit_static] appended are in the final code. *)
  Lemma emit_at : forall (exit : bool) (mk : nat -> instr) s s1 s3 s' d, agree s s' -> pref s s1 -> pref s3 s' ->
    bare s3 = bare s1 ++ mk d :: (if exit then [IReturn (Local d)] else []) ->
    (exists ops, nth_error I (length (bare s1)) = Some (ops, mk d)) /\
    (if exit then exists ops, nth_error I (S (length (bare s1))) = Some (ops, IReturn (Local d))
     else length (bare s3) = S (length (bare s1))).
  Proof.
    intros exit mk s s1 s3 s' d A P1 P3 B. pose proof (pref_len _ _ P1) as L1.
    split.
    - eapply agree_at; eauto. rewrite (pref_nth s3 s'); auto.
      + rewrite B. rewrite nth_error_app2, Nat.sub_diag by lia. reflexivity.
      + rewrite B, app_length. cbn. lia.
    - destruct exit.
      + eapply agree_at; eauto. rewrite (pref_nth s3 s'); auto.
        * rewrite B. rewrite nth_error_app2 by lia. replace (S (length (bare s1)) - length (bare s1)) with 1 by lia. reflexivity.
        * rewrite B, app_length. cbn. lia.
      + rewrite B, app_length. cbn. lia.
  Qed.

  (** ** Lists of expressions *)
  Lemma compile_list_spec : forall comp es, Forall (spec comp false) es ->
    forall bs s, forallb (wf (length (srefs s)) (length (arefs s)) bs) es = true -> envok bs s -> inv s ->
    exists vs s', compile_list comp es s = Some (vs, s') /\ ext s s' /\
      (forall v, cnt s' v = cnt s v + occ v (map Some vs)) /\ Forall (inrange s') vs /\ length vs = length es /\
      forall l env sM sE, sides s -> agree s s' -> length (slots s') <= length l -> vrels l (vars s) env -> srel sM sE ->
        goodL s (length (bare s)) (length (bare s')) vs l sM (ev_list (fun e s => ev false e env s) es sE).
  Proof.
    intros comp es F. induction F as [|e es H F IH]; intros bs s W Ev Iv.
    - exists [], s. cbn. split; auto. split; [apply ext_refl|]. split; [intros; lia|]. split; [constructor|]. split; auto.
      intros l env sM sE _ _ _ V R. exists l, sM, []. split; [apply steps_refl|]. split; auto. split; auto. split; auto. apply pres_refl.
    - cbn in W. apply andb_true_iff in W. destruct W as [W1 W2].
      destruct (H bs s W1 Ev Iv) as [r [s1 [E1 [N1 [S1 D1]]]]]. destruct N1 as [v ->]; auto.
      pose proof (x_ext _ _ _ S1) as X1.
      destruct (IH bs s1) as [vs [s2 [E2 [X2 [C2 [R2 [L2 D2]]]]]]].
      { rewrite (e_srefs _ _ X1), (e_arefs _ _ X1). auto. }
      { eapply envok_ext; eauto. }
      { eapply static_inv; eauto. }
      exists (v :: vs), s2. cbn [compile_list]. rewrite E1, E2. split; auto.
      split; [eapply ext_trans; eauto|]. split.
      { intros w. rewrite C2, (x_cnt _ _ _ S1). cbn. lia. }
      split.
      { constructor; auto. eapply inrange_ext; [exact X2|]. apply (x_range _ _ _ S1). reflexivity. }
      split; [cbn; auto|].
      intros l env sM sE Sd A L V R. cbn [ev_list].
      assert (A1 : agree s s1) by (eapply agree_sub; [exact A|apply pref_refl|apply pref_ext; auto]).
      assert (A2 : agree s1 s2) by (eapply agree_sub; [exact A|apply pref_ext; auto|apply pref_refl]).
      assert (L1 : length (slots s1) <= length l) by (pose proof (e_slots _ _ X2); lia).
      specialize (D1 l env sM sE Sd A1 L1 V R). apply good_sub in D1.
      destruct D1 as [[x [sE1 [w [l1 [sM1 [y [Q [Hv [T [G [Vy [R1 P1]]]]]]]]]]]] | [o [sE1 [o' [sM1 [Q [Nv [T [O R1]]]]]]]]].
      + rewrite Q. injection Hv as <-.
        assert (M1 : mono s s1) by (eapply static_mono; eauto).
        assert (V1 : vrels l1 (vars s1) env).
        { rewrite (e_vars _ _ X1). eapply pres_vrels; [exact P1| |exact V]. apply Iv. }
        specialize (D2 l1 env sM1 sE1 (sides_ext _ _ X1 Sd) A2).
        destruct P1 as [PL P1]. rewrite PL in D2. specialize (D2 L V1 R1). unfold goodL in D2.
        match goal with |- goodL _ _ _ _ _ _ (match ?q with _ => _ end) => destruct q as [xs sE2|o sE2] eqn:Q2 end.
        * destruct D2 as [l2 [sM2 [ys [T2 [G2 [F2 [R2' P2]]]]]]]. exists l2, sM2, (y :: ys).
          split; [eapply steps_trans; eauto|]. split.
          { cbn [CodeModel.gets]. rewrite (pres_get s1 l1 l2 v y P2); auto.
            - rewrite G2. reflexivity.
            - rewrite (x_cnt _ _ _ S1). rewrite one_occ, one_same. lia. }
          split; [constructor; auto|]. split; auto. eapply pres_trans; [exact M1| |exact P2]. split; auto.
        * destruct D2 as [N2 [o' [sM2 [T2 [O2 R2']]]]]. split; auto. exists o', sM2. split; auto. eapply steps_stops; eauto.
      + rewrite Q. assert (goodL s (length (bare s)) (length (bare s2)) (v :: vs) l sM (LFail o sE1)).
        { split; auto. exists o', sM1. auto. }
        destruct Nv as [N1 N2]. destruct o; auto.
        * destruct (N1 v0); auto.
        * destruct (N2 f args); auto.
  Qed.

  Lemma releases_one : forall v s, releases [v] s = release (Some v) s.
  Proof. intros. cbn [releases]. destruct (release (Some v) s); reflexivity. Qed.
  Lemma releases_app : forall a b s, releases (a ++ b) s = match releases a s with Some s' => releases b s' | None => None end.
  Proof. induction a as [|v a IH]; intros b s; auto. cbn [releases app]. destruct (release (Some v) s); auto. Qed.

  (** Appending an instruction that reads the locals [ws] and writes a new one. *)
  Lemma finish : forall (exit : bool) (mk : nat -> instr) ws s s1 d s2 s3, ext s s1 ->
    (forall v, cnt s1 v = cnt s v + occ v (map Some ws)) -> new_local s1 = (d, s2) ->
    s3 = compile_exit exit (Some (Local d)) (append_instr (mk d) s2) ->
    exists s4, releases ws s3 = Some s4 /\ static s s4 (Some (Local d)) /\ pref s1 s4 /\ length (slots s1) <= length (slots s4) /\
      forall l sM sE, agree s s4 -> length (slots s4) <= length l -> srel sM sE ->
        (forall x y, vrel y x ->
           (forall sM', refs sM' = refs sM -> forall pc, exec (mk d) pc l sM' = put (S pc) d y l sM') ->
           good exit s1 (length (bare s1)) (length (bare s4)) (Some (Local d)) l sM (Ret x, sE)) /\
        (forall o o', outrel o o' -> noval o' ->
           (forall sM', refs sM' = refs sM -> forall pc, exec (mk d) pc l sM' = Stop o sM') ->
           good exit s1 (length (bare s1)) (length (bare s4)) (Some (Local d)) l sM (o', sE)).
  Proof.
    intros exit mk ws s s1 d s2 s3 X C N E3.
    destruct (emit_static exit mk s1 d s2 s3 N E3) as [X1 [C3 [R3 [B3 C0]]]]. clear E3.
    destruct (releases_spec ws s3) as [s4 [E4 [X4 [C4 [I4 L4]]]]].
    { intros v. rewrite C3, C. lia. }
    exists s4. split; auto.
    assert (P34 : pref s3 s4) by (apply pref_instrs; auto).
    assert (P14 : pref s1 s4) by (eapply pref_trans; [apply pref_ext; exact X1|auto]).
    assert (Lb : length (bare s4) = length (bare s3)) by (unfold bare; rewrite I4; reflexivity).
    split; [|split; [auto|split; [pose proof (e_slots _ _ X1); lia|]]].
    - constructor.
      + eapply ext_trans; [exact X|]. eapply ext_trans; [exact X1|exact X4].
      + intros v. specialize (C4 v). rewrite C3, C in C4. rewrite one_occ. lia.
      + intros v Hv. injection Hv as <-. eapply inrange_ext; eauto.
    - intros l sM sE A L R.
      assert (Dl : d < length l) by (cbn in R3; lia).
      destruct (emit_at exit mk s s1 s3 s4 d A (pref_ext _ _ X) P34 B3) as [At1 At2].
      split.
      + intros x y V Ex. rewrite Lb. eapply emit_put; eauto.
      + intros o o' O Nv Ex. eapply emit_stop; eauto.
  Qed.

  Lemma ok_const : forall (exit : bool) (mk : nat -> instr) e comp x y,
    (forall s, comp exit e s = let '(d, s) := new_local s in Some (Some (Local d), compile_exit exit (Some (Local d)) (append_instr (mk d) s))) ->
    (forall env sE, ev exit e env sE = (Ret x, sE)) -> vrel y x ->
    (forall d pc l sM, exec (mk d) pc l sM = put (S pc) d y l sM) -> spec comp exit e.
  Proof.
    intros exit mk e comp x y Hc He V Ex bs s W Ev Iv. rewrite Hc. destruct (new_local s) as [d s2] eqn:N.
    assert (C : forall v, cnt s v = cnt s v + occ v (map Some [])) by (intros; cbn; lia).
    destruct (finish exit mk [] s s d s2 _ (ext_refl s) C N eq_refl) as [s4 [E4 [S4 [P4 [L4 D4]]]]].
    cbn [releases] in E4. injection E4 as E4.
    exists (Some (Local d)), s4. rewrite E4. split; auto. split; [eauto|]. split; auto.
    intros l env sM sE Sd A L Vr R. rewrite He. destruct (D4 l sM sE A L R) as [G _]. apply (G x y); auto.
  Qed.

  Lemma ok_struct_like : forall (exit : bool) (mk : list var -> nat -> instr) e comp es fM fE k,
    (forall s, comp exit e s = match compile_list (compile k) es s with
      | None => None
      | Some (vs, s) =>
        let '(d, s) := new_local s in
        let s := compile_exit exit (Some (Local d)) (append_instr (mk vs d) s) in
        match releases vs s with
        | Some s => Some (Some (Local d), s)
        | None => None
        end
      end) ->
    (forall ns na bs, wf ns na bs e = forallb (wf ns na bs) es) ->
    (forall env sE, ev exit e env sE = match ev_list (fun e s => ev false e env s) es sE with
      | LOk vs s => (Ret (fE vs), s)
      | LFail o s => (o, s)
      end) -> (forall xs ys, Forall2 vrel xs ys -> vrel (fM xs) (fE ys)) ->
    (forall vs d pc l sM ys, gets l vs = Some ys -> exec (mk vs d) pc l sM = put (S pc) d (fM ys) l sM) ->
    Forall (spec (compile k) false) es -> spec comp exit e.
  Proof.
    intros exit mk e comp es fM fE k Hc Hw He V Ex F bs s W Ev Iv. rewrite Hw in W. rewrite Hc.
    destruct (compile_list_spec (compile k) es F bs s W Ev Iv) as [vs [s1 [E1 [X1 [C1 [R1 [L1 D1]]]]]]]. rewrite E1.
    destruct (new_local s1) as [d s2] eqn:N.
    destruct (finish exit (mk vs) vs s s1 d s2 _ X1 C1 N eq_refl) as [s4 [E4 [S4 [P4 [L4 D4]]]]].
    cbv zeta. rewrite E4. exists (Some (Local d)), s4. split; auto. split; [eauto|]. split; auto.
    intros l env sM sE Sd A L Vr R. rewrite He.
    assert (A1 : agree s s1) by (eapply agree_sub; [exact A|apply pref_refl|auto]).
    specialize (D1 l env sM sE Sd A1 ltac:(lia) Vr R). unfold goodL in D1.
    assert (M1 : mono s s1) by (intros v; rewrite C1; lia).
    destruct (ev_list (fun e s => ev false e env s) es sE) as [xs sE1|o sE1].
    - destruct D1 as [l1 [sM1 [ys [T [G [Fv [R1' P1]]]]]]].
      eapply good_steps; [exact M1|exact T|exact P1|].
      destruct P1 as [PL _]. destruct (D4 l1 sM1 sE1 A ltac:(lia) R1') as [Gd _].
      apply (Gd (fE xs) (fM ys)); auto.
    - destruct D1 as [N1 [o' [sM' [T [O R']]]]]. eapply good_fail; eauto.
  Qed.

  Lemma spec_inv : forall s s' r, static s s' r -> inv s -> inv s' /\ mono s s' /\ pref s s'.
  Proof. intros s s' r S Iv. split; [eapply static_inv; eauto|]. split; [eapply static_mono; eauto|]. apply pref_ext. apply (x_ext _ _ _ S). Qed.

  (** Instructions with one operand. *)
  Lemma ok_one : forall (exit : bool) (mk : var -> nat -> instr) e comp a f k,
    (forall s, comp exit e s = match compile k false a s with
      | Some (Some v, s) =>
        let '(d, s) := new_local s in
        let s := compile_exit exit (Some (Local d)) (append_instr (mk v d) s) in
        match release (Some v) s with
        | Some s => Some (Some (Local d), s)
        | None => None
        end
      | _ => None
      end) ->
    (forall ns na bs, wf ns na bs e = wf ns na bs a) ->
    (forall env sE, ev exit e env sE = match ev false a env sE with
      | (Ret v, s) => f v s
      | (Tail _ _, s) => (Crash, s)
      | (o, s) => (o, s)
      end) ->
    (forall x y sM sE l v d, vrel y x -> get l v = Some y -> srel sM sE -> d < length l ->
      (exists x' y', f x sE = (Ret x', sE) /\ vrel y' x' /\
        forall sM', refs sM' = refs sM -> forall pc, exec (mk v d) pc l sM' = put (S pc) d y' l sM') \/
      (exists o o', f x sE = (o', sE) /\ outrel o o' /\ noval o' /\
        forall sM', refs sM' = refs sM -> forall pc, exec (mk v d) pc l sM' = Stop o sM')) ->
    spec (compile k) false a -> spec comp exit e.
  Proof.
    intros exit mk e comp a f k Hc Hw He Hf Sp bs s W Ev Iv. rewrite Hw in W. rewrite Hc.
    destruct (Sp bs s W Ev Iv) as [r [s1 [E1 [N1 [S1 D1]]]]]. destruct N1 as [v ->]; auto. rewrite E1.
    destruct (new_local s1) as [d s2] eqn:N.
    destruct (finish exit (mk v) [v] s s1 d s2 _ (x_ext _ _ _ S1) (x_cnt _ _ _ S1) N eq_refl) as [s4 [E4 [S4 [P4 [L4 D4]]]]].
    cbv zeta. rewrite releases_one in E4. rewrite E4. exists (Some (Local d)), s4. split; auto. split; [eauto|]. split; auto.
    intros l env sM sE Sd A L Vr R. rewrite He.
    assert (A1 : agree s s1) by (eapply agree_sub; [exact A|apply pref_refl|auto]).
    specialize (D1 l env sM sE Sd A1 ltac:(lia) Vr R). apply good_sub in D1.
    destruct (spec_inv _ _ _ S1 Iv) as [_ [M1 _]].
    destruct D1 as [[x [sE1 [w [l1 [sM1 [y [Q [Hv [T [G [Vy [R1 P1]]]]]]]]]]]] | [o [sE1 [o' [sM1 [Q [Nv [T [O R1]]]]]]]]].
    - rewrite Q. injection Hv as <-. eapply good_steps; [exact M1|exact T|exact P1|].
      destruct P1 as [PL _]. destruct (D4 l1 sM1 sE1 A ltac:(lia) R1) as [Gd Gf].
      destruct (Hf x y sM1 sE1 l1 v d Vy G R1 ltac:(pose proof (x_range _ _ _ S4 _ eq_refl) as Lr; cbn in Lr; lia)) as [[x' [y' [F1 [F2 F3]]]]|[o [o' [F1 [F2 [F3 F4]]]]]]; rewrite F1.
      + apply (Gd x' y'); auto.
      + apply (Gf o o'); auto.
    - rewrite Q. assert (Gf : good exit s (length (bare s)) (length (bare s4)) (Some (Local d)) l sM (o, sE1)) by (eapply good_fail; eauto).
      destruct Nv as [N1 N2]. destruct o; auto. destruct (N1 v0); auto. destruct (N2 f0 args); auto.
  Qed.

  (** ** Variables and functions *)
  Lemma vrels_nth : forall l vs env i v, vrels l vs env -> nth_error vs i = Some (Some v) ->
    exists x y, nth_error env i = Some (Some x) /\ get l v = Some y /\ vrel y x.
  Proof.
    intros l vs env i v V H. pose proof (F2_nth_error _ _ _ V i) as N. rewrite H in N.
    destruct (nth_error env i) as [[x|]|]; cbn in N; try contradiction. destruct N as [y [N1 N2]]. exists x, y. auto.
  Qed.

  Lemma get_var_spec : forall bs s v, wf_var (length (srefs s)) (length (arefs s)) bs v = true -> envok bs s -> inv s ->
    exists x, get_var v s = Some (Some x) /\ inrange s x /\
      forall l env, sides s -> vrels l (vars s) env -> exists y z, get l x = Some y /\ lookup stE argE env v = Some z /\ vrel y z.
  Proof.
    intros bs s v W [EL Ev] [Hb [Ho Hr]]. destruct v as [i|i|i]; cbn in W |- *.
    - exists (Static i). rewrite W. split; auto. apply Nat.ltb_lt in W. split; auto. intros l env [S1 S2] V. cbn.
      pose proof (F2_nth_error _ _ _ Hst i) as N. destruct (nth_error stM i) as [y|] eqn:E.
      + destruct (nth_error stE i) as [z|]; try contradiction. exists y, z. auto.
      + apply nth_error_None in E. lia.
    - exists (Arg i). rewrite W. split; auto. apply Nat.ltb_lt in W. split; auto. intros l env [S1 S2] V. cbn.
      pose proof (F2_nth_error _ _ _ Harg i) as N. destruct (nth_error argM i) as [y|] eqn:E.
      + destruct (nth_error argE i) as [z|]; try contradiction. exists y, z. auto.
      + apply nth_error_None in E. lia.
    - destruct (Ev i W) as [x Hx]. exists x. split; auto. split; [eapply Hr; eauto|].
      intros l env _ V. destruct (vrels_nth _ _ _ _ _ V Hx) as [z [y [H1 [H2 H3]]]]. exists y, z. rewrite H1. auto.
  Qed.

  Lemma ok_var : forall comp exit v,
    (forall s, comp exit (TVar v) s = match get_var v s with
      | Some (Some x) => Some (Some x, compile_exit exit (Some x) (retain x s))
      | _ => None
      end) -> spec comp exit (TVar v).
  Proof.
    intros comp exit v Hc bs s W Ev Iv. rewrite Hc. cbn [wf] in W.
    destruct (get_var_spec bs s v W Ev Iv) as [x [E [R D]]]. rewrite E.
    destruct (retain_spec s x (proj1 Iv) R) as [X1 [C1 I1]].
    destruct (compile_exit_spec exit (Some x) (retain x s)) as [B1 [B2 B3]].
    eexists. eexists. split; [reflexivity|]. split; [eauto|]. split.
    - constructor.
      + eapply ext_trans; eauto.
      + intros w. rewrite (same_counts_cnt _ _ _ B1), C1, one_occ. reflexivity.
      + intros w Hw. injection Hw as <-. eapply inrange_ext; [exact B2|]. eapply inrange_ext; eauto.
    - intros l env sM sE Sd A L V Rs. destruct (D l env Sd V) as [y [z [G1 [G2 G3]]]].
      cbn [CompileEval.ev]. rewrite G2. assert (Hb : bare (retain x s) = bare s) by (unfold bare; rewrite I1; reflexivity).
      unfold good. cbn [fst snd]. destruct exit.
      + destruct (append_instr_spec (IReturn x) (retain x s)) as [D1 [D2 [D3 D4]]]. cbn [compile_exit] in A |- *.
        destruct (agree_at s _ (length (bare s)) (IReturn x) A) as [ops Hops]; auto.
        { rewrite D3, Hb. rewrite nth_error_app2, Nat.sub_diag by lia. reflexivity. }
        exists (Ret y), (do_ops blk ops sM). split; [|split; [constructor; auto|apply do_ops_srel; auto]].
        eapply stops_stop; [exact Hops|]. cbn [CodeModel.exec]. rewrite G1. reflexivity.
      + exists x, l, sM, y. split; auto. cbn [compile_exit]. rewrite Hb. split; [apply steps_refl|]. repeat (split; auto).
  Qed.

  Lemma get_vars_spec : forall bs s vs, forallb (wf_var (length (srefs s)) (length (arefs s)) bs) vs = true -> envok bs s -> inv s ->
    exists xs, get_vars vs s = Some xs /\ length xs = length vs /\
      forall l env, sides s -> vrels l (vars s) env -> exists ys zs, gets l xs = Some ys /\ lookups stE argE env vs = Some zs /\ Forall2 vrel ys zs.
  Proof.
    intros bs s vs W Ev Iv. induction vs as [|v vs IH].
    - exists []. split; auto. split; auto. intros. exists [], []. auto.
    - cbn in W. apply andb_true_iff in W. destruct W as [W1 W2].
      destruct (get_var_spec bs s v W1 Ev Iv) as [x [E [R D]]]. destruct (IH W2) as [xs [Es [Ls Ds]]].
      exists (x :: xs). cbn [get_vars]. rewrite E, Es. split; auto. split; [cbn; auto|].
      intros l env Sd V. destruct (D l env Sd V) as [y [z [G1 [G2 G3]]]]. destruct (Ds l env Sd V) as [ys [zs [H1 [H2 H3]]]].
      exists (y :: ys), (z :: zs). cbn [CodeModel.gets lookups]. rewrite G1, H1, G2, H2. auto.
  Qed.

  Lemma init_inv : forall na ns b bst bn, inv (init_scope na ns b bst bn) /\ envok [] (init_scope na ns b bst bn).
  Proof.
    intros. split.
    - split; [|split].
      + split; apply Forall_forall; intros x H; apply repeat_spec in H; lia.
      + intros v. cbn. lia.
      + intros i v H. destruct i; discriminate.
    - split; auto. intros i H. destruct i; discriminate.
  Qed.

  Lemma ok_func : forall k exit scope body, (forall e, size e <= k -> spec (compile k) true e) -> size (TFunc scope body) <= S k ->
    spec (compile (S k)) exit (TFunc scope body).
  Proof.
    intros k exit scope body Sp Sz bs s W Ev Iv. cbn [wf] in W. apply andb_true_iff in W. destruct W as [W1 W2].
    cbn [compile]. destruct (merge_func scope body) as [nargs b] eqn:Mg.
    destruct (merge_func_spec _ _ _ _ Mg W2) as [Wb [Sb Na]].
    destruct (get_vars_spec bs s scope W1 Ev Iv) as [svs [Es [Ls Ds]]]. rewrite Es. cbn [push_block].
    set (s0 := with_blocks (bnext s :: bstack s) (S (bnext s)) s).
    cbn [size] in Sz.
    destruct (init_inv nargs (length scope) (bnext s) (bstack s0) (bnext s0)) as [Iv0 Ev0].
    destruct (Sp b ltac:(lia) [] (init_scope nargs (length scope) (bnext s) (bstack s0) (bnext s0))) as [r [fs [E1 [_ [S1 _]]]]]; auto.
    { cbn [srefs arefs init_scope]. rewrite !repeat_length. auto. }
    rewrite E1. pose proof (x_ext _ _ _ S1) as X1.
    destruct (exit_block_spec true fs (bnext s) (bstack s)) as [fs1 [E2 [Sc2 [Bs2 [Bc2 Ls2]]]]].
    { rewrite (e_bstack _ _ X1). reflexivity. }
    rewrite E2.
    assert (I2 : instrs fs1 = instrs fs).
    { unfold exit_block in E2. rewrite (e_bstack _ _ X1) in E2. cbn in E2. injection E2 as <-. reflexivity. }
    assert (E3 : exists fs2, release r fs1 = Some fs2 /\ instrs fs2 = instrs fs1 /\ length (slots fs2) = length (slots fs1) /\
        vars fs2 = [] /\ bstack fs2 = bstack s).
    { assert (Vf : vars fs1 = []) by (destruct Sc2 as [_ [_ [_ [V _]]]]; rewrite V, (e_vars _ _ X1); reflexivity).
      destruct r as [v|].
      - destruct (release_spec fs1 v) as [fs2 [E3 [X3 [C3 [I3 L3]]]]].
        { rewrite (same_counts_cnt _ _ _ Sc2), (x_cnt _ _ _ S1), one_occ, one_same. lia. }
        exists fs2. split; auto. split; auto. split; auto. split; [rewrite (e_vars _ _ X3); auto|rewrite (e_bstack _ _ X3); auto].
      - exists fs1. split; auto. }
    destruct E3 as [fs2 [E3 [I3 [L3 [V3 B3]]]]]. rewrite E3. unfold free_scope. rewrite V3. cbn [length pop_vars].
    set (s1 := with_blocks (bstack fs2) (bnext fs2) s0).
    assert (X01 : ext s s1).
    { constructor; cbn; auto. exists []. rewrite app_nil_r. reflexivity. }
    destruct (new_local s1) as [d s2] eqn:N.
    set (c := finish_code nargs (length scope) fs2).
    assert (C1 : forall v, cnt s1 v = cnt s v + occ v (map Some [])) by (intros [?|?|?]; cbn; lia).
    destruct (finish exit (fun d => IFunc d (bnext s - block s2) c svs) [] s s1 d s2 _ X01 C1 N eq_refl) as [s4 [E4 [S4 [P4 [L4 D4]]]]].
    cbn [releases] in E4. injection E4 as E4. rewrite E4.
    exists (Some (Local d)), s4. split; auto. split; [eauto|]. split; auto.
    intros l env sM sE Sd A L V R. cbn [CompileEval.ev]. rewrite Mg.
    destruct (Ds l env Sd V) as [ys [zs [G1 [G2 G3]]]]. rewrite G2.
    destruct (D4 l sM sE A L R) as [Gd _]. change (length (bare s)) with (length (bare s1)).
    assert (Ly : length ys = length scope).
    { clear - G1 Ls. revert ys G1. rewrite <- Ls. clear Ls. induction svs as [|v svs IH]; intros ys G; cbn in *.
      - injection G as <-. auto.
      - destruct (get l v); try discriminate. destruct (gets l svs) as [q|] eqn:Q; try discriminate. injection G as <-. cbn. auto. }
    eapply (good_steps exit s s1 _ _ _ _ l l sM sM); [intros v; rewrite C1; lia|apply steps_refl|apply pres_refl|].
    apply (Gd _ (VFunc nargs c (blk + (bnext s - block s2)) ys)).
    - constructor; auto. exists k, (bnext s), (bstack s), (bnext s0), r, fs. cbn [code_num_args code_num_statics c finish_code code_instrs code_num_locals].
      split; auto. split; [lia|]. split; auto. split; congruence.
    - intros sM' _ pc. cbn [CodeModel.exec]. rewrite G1. cbn [code_num_statics c finish_code code_num_args].
      rewrite <- Ly, Nat.leb_refl, firstn_all. reflexivity.
  Qed.

  (** ** Struct copies *)
  Lemma access_cases : forall (isS : bool) tag x y sM sE l v d, vrel y x -> get l v = Some y -> srel sM sE -> d < length l ->
    let f (v : eval_val) (s : eval_st) : res tc :=
        match strict_value (refs s) v with
        | SUndef => (Abort, s)
        | SBad => (Crash, s)
        | SVal (VStruct fs) =>
          if isS then
            match nth_error fs tag with Some x => (Ret x, s) | None => (Crash, s) end
          else (Crash, s)
        | SVal (VUnion t x) =>
          if isS then (Crash, s) else if t =? tag then (Ret x, s) else (Abort, s)
        | SVal _ => (Crash, s)
        end in
      (exists x' y', f x sE = (Ret x', sE) /\ vrel y' x' /\
        forall sM', refs sM' = refs sM -> forall pc, exec (IAccess isS v tag d) pc l sM' = put (S pc) d y' l sM') \/
      (exists o o', f x sE = (o', sE) /\ outrel o o' /\ noval o' /\
        forall sM', refs sM' = refs sM -> forall pc, exec (IAccess isS v tag d) pc l sM' = Stop o sM').
  Proof.
    intros isS tag x y sM sE l v d V G R Ld f. apply Nat.ltb_lt in Ld. unfold f. pose proof (strict_value_rel _ _ _ _ R V) as SR.
    assert (Fail : forall o o', outrel o o' -> noval o' -> (f x sE = (o', sE)) ->
      (forall sM', refs sM' = refs sM -> forall pc, exec (IAccess isS v tag d) pc l sM' = Stop o sM') ->
      (exists o o', f x sE = (o', sE) /\ outrel o o' /\ noval o' /\
        forall sM', refs sM' = refs sM -> forall pc, exec (IAccess isS v tag d) pc l sM' = Stop o sM')).
    { intros o o' H1 H2 H3 H4. exists o, o'. auto. }
    assert (NA : noval Abort) by (split; discriminate). assert (NC : noval Crash) by (split; discriminate).
    unfold f in Fail.
    destruct (strict_value (refs sM) y) as [y1| |] eqn:EM; inversion SR as [y1' x1 V1 NR E1 E2|E1 E2|E1 E2]; subst.
    - destruct V1; rewrite <- E2 in *.
      + destruct isS.
        * pose proof (F2_nth_error _ _ _ H tag) as Nt.
          destruct (nth_error xs tag) as [a|] eqn:Ea, (nth_error ys tag) as [b|] eqn:Eb; try contradiction.
          -- left. exists b, a. split; auto. split; auto. intros sM' Hr pc. cbn [CodeModel.exec]. rewrite G, Hr, EM, Ea. reflexivity.
          -- right. apply (Fail Crash Crash); auto; [constructor|]. intros sM' Hr pc. cbn [CodeModel.exec]. rewrite G, Hr, EM, Ea. reflexivity.
        * right. apply (Fail Crash Crash); auto; [constructor|]. intros sM' Hr pc. cbn [CodeModel.exec]. rewrite G, Hr, EM. reflexivity.
      + destruct isS.
        * right. apply (Fail Crash Crash); auto; [constructor|]. intros sM' Hr pc. cbn [CodeModel.exec]. rewrite G, Hr, EM. reflexivity.
        * destruct (t =? tag) eqn:Et.
          -- left. exists y0, x0. split; auto. split; auto. intros sM' Hr pc. cbn [CodeModel.exec]. rewrite G, Hr, EM, Et. reflexivity.
          -- right. apply (Fail Abort Abort); auto; [constructor|]. intros sM' Hr pc. cbn [CodeModel.exec]. rewrite G, Hr, EM, Et. unfold fail. rewrite Ld. reflexivity.
      + right. apply (Fail Crash Crash); auto; [constructor|]. intros sM' Hr pc. cbn [CodeModel.exec]. rewrite G, Hr, EM. reflexivity.
      + right. apply (Fail Crash Crash); auto; [constructor|]. intros sM' Hr pc. cbn [CodeModel.exec]. rewrite G, Hr, EM. reflexivity.
      + destruct (NR l0); auto.
      + right. apply (Fail Crash Crash); auto; [constructor|]. intros sM' Hr pc. cbn [CodeModel.exec]. rewrite G, Hr, EM. reflexivity.
    - rewrite <- E2 in *. right. apply (Fail Abort Abort); auto; [constructor|]. intros sM' Hr pc. cbn [CodeModel.exec]. rewrite G, Hr, EM. unfold fail. rewrite Ld. reflexivity.
    - rewrite <- E2 in *. right. apply (Fail Crash Crash); auto; [constructor|]. intros sM' Hr pc. cbn [CodeModel.exec]. rewrite G, Hr, EM. reflexivity.
  Qed.

  Definition spec_o (comp : bool -> tc -> cs -> option (option var * cs)) (o : option tc) : Prop :=
    match o with Some e => spec comp false e | None => True end.

  Lemma compile_fields_spec : forall comp sv es, Forall (spec_o comp) es ->
    forall i bs s, forallb (fun o => match o with Some e => wf (length (srefs s)) (length (arefs s)) bs e | None => true end) es = true ->
    envok bs s -> inv s -> 0 < cnt s sv ->
    exists vs s', compile_fields comp sv i es s = Some (vs, s') /\ ext s s' /\
      (forall v, cnt s' v = cnt s v + occ v (map Some vs)) /\
      forall l env sM sE ysrc xsrc, sides s -> agree s s' -> length (slots s') <= length l -> vrels l (vars s) env -> srel sM sE ->
        get l sv = Some ysrc -> vrel ysrc xsrc ->
        goodL s (length (bare s)) (length (bare s')) vs l sM (ev_fields (fun e s => ev false e env s) xsrc i es sE).
  Proof.
    intros comp sv es F. induction F as [|o es H F IH]; intros i bs s W Ev Iv Cs.
    - exists [], s. cbn. split; auto. split; [apply ext_refl|]. split; [intros; lia|].
      intros l env sM sE ysrc xsrc _ _ _ V R _ _. exists l, sM, []. split; [apply steps_refl|]. split; auto. split; auto. split; auto. apply pres_refl.
    - cbn [forallb] in W. apply andb_true_iff in W. destruct W as [W1 W2].
      assert (Step : exists v s1, (match o with
          | Some e => match comp false e s with Some (Some v, s) => Some (v, s) | _ => None end
          | None => let '(d, s) := new_local s in Some (Local d, append_instr (IAccess true sv i d) s) end) = Some (v, s1) /\
          static s s1 (Some v) /\
          forall l env sM sE ysrc xsrc, sides s -> agree s s1 -> length (slots s1) <= length l -> vrels l (vars s) env -> srel sM sE ->
            get l sv = Some ysrc -> vrel ysrc xsrc ->
            good false s (length (bare s)) (length (bare s1)) (Some v) l sM
              (match o with
               | Some e => ev false e env sE
               | None => match strict_value (refs sE) xsrc with
                  | SUndef => (Abort, sE)
                  | SBad => (Crash, sE)
                  | SVal (VStruct fs) => match nth_error fs i with Some x => (Ret x, sE) | None => (Crash, sE) end
                  | SVal (VUnion t x) => (Crash, sE)
                  | SVal _ => (Crash, sE)
                  end
               end)).
      { destruct o as [e|].
        - destruct (H bs s W1 Ev Iv) as [r [s1 [E1 [N1 [S1 D1]]]]]. destruct N1 as [v ->]; auto. rewrite E1.
          exists v, s1. split; auto. 
        - destruct (new_local s) as [d s2] eqn:N.
          assert (C0 : forall v, cnt s v = cnt s v + occ v (map Some [])) by (intros; cbn; lia).
          destruct (finish false (IAccess true sv i) [] s s d s2 _ (ext_refl s) C0 N eq_refl) as [s4 [E4 [S4 [P4 [L4 D4]]]]].
          cbn [releases compile_exit] in E4. injection E4 as E4. rewrite E4. exists (Local d), s4. split; auto. split; auto.
          intros l env sM sE ysrc xsrc Sd A L V R G Vs. destruct (D4 l sM sE A L R) as [Gd Gf].
          destruct (access_cases true i xsrc ysrc sM sE l sv d Vs G R ltac:(pose proof (x_range _ _ _ S4 _ eq_refl) as Lr; cbn in Lr; lia)) as [[x' [y' [F1 [F2 F3]]]]|[o [o' [F1 [F2 [F3 F4]]]]]]; rewrite F1.
          + apply (Gd x' y'); auto.
          + apply (Gf o o'); auto. }
      destruct Step as [v [s1 [E1 [S1 D1]]]]. pose proof (x_ext _ _ _ S1) as X1.
      destruct (IH (S i) bs s1) as [vs [s2 [E2 [X2 [C2 D2]]]]].
      { rewrite (e_srefs _ _ X1), (e_arefs _ _ X1). auto. }
      { eapply envok_ext; eauto. }
      { eapply static_inv; eauto. }
      { rewrite (x_cnt _ _ _ S1). lia. }
      exists (v :: vs), s2. split.
      { cbn [compile_fields]. destruct o as [e|].
        - destruct (comp false e s) as [[[w|] t]|]; try discriminate. injection E1 as -> ->. rewrite E2. reflexivity.
        - destruct (new_local s) as [d t]. injection E1 as <- ->. rewrite E2. reflexivity. }
      split; [eapply ext_trans; eauto|]. split.
      { intros w. rewrite C2, (x_cnt _ _ _ S1). cbn. lia. }
      intros l env sM sE ysrc xsrc Sd A L V R Gs Vs.
      assert (A1 : agree s s1) by (eapply agree_sub; [exact A|apply pref_refl|apply pref_ext; auto]).
      assert (A2 : agree s1 s2) by (eapply agree_sub; [exact A|apply pref_ext; auto|apply pref_refl]).
      assert (L1 : length (slots s1) <= length l) by (pose proof (e_slots _ _ X2); lia).
      specialize (D1 l env sM sE ysrc xsrc Sd A1 L1 V R Gs Vs). apply good_sub in D1.
      assert (Eq : ev_fields (fun e s => ev false e env s) xsrc i (o :: es) sE =
        match (match o with
               | Some e => ev false e env sE
               | None => match strict_value (refs sE) xsrc with
                  | SUndef => (Abort, sE)
                  | SBad => (Crash, sE)
                  | SVal (VStruct fs) => match nth_error fs i with Some x => (Ret x, sE) | None => (Crash, sE) end
                  | SVal (VUnion t x) => (Crash, sE)
                  | SVal _ => (Crash, sE)
                  end
               end) with
        | (Ret v, s) => match ev_fields (fun e s => ev false e env s) xsrc (S i) es s with LOk vs s => LOk (v :: vs) s | o => o end
        | (Tail _ _, s) => LFail Crash s
        | (o, s) => LFail o s
        end).
      { cbn [ev_fields]. destruct o as [e|]; [reflexivity|]. destruct (strict_value (refs sE) xsrc) as [[fs|t x|n b k st|n k g a|rl|]| |]; try reflexivity.
        destruct (nth_error fs i); reflexivity. }
      rewrite Eq. clear Eq.
      destruct D1 as [[x [sE1 [w [l1 [sM1 [y [Q [Hv [T [G [Vy [R1 P1]]]]]]]]]]]] | [oo [sE1 [o' [sM1 [Q [Nv [T [O R1]]]]]]]]].
      + rewrite Q. injection Hv as <-.
        assert (M1 : mono s s1) by (eapply static_mono; eauto).
        assert (V1 : vrels l1 (vars s1) env).
        { rewrite (e_vars _ _ X1). eapply pres_vrels; [exact P1| |exact V]. apply Iv. }
        pose proof (pres_get _ _ _ _ _ P1 Cs Gs) as Gs1.
        specialize (D2 l1 env sM1 sE1 ysrc xsrc (sides_ext _ _ X1 Sd) A2).
        destruct P1 as [PL P1]. rewrite PL in D2. specialize (D2 L V1 R1 Gs1 Vs). unfold goodL in D2.
        match goal with |- goodL _ _ _ _ _ _ (match ?q with _ => _ end) => destruct q as [xs sE2|oo sE2] eqn:Q2 end.
        * destruct D2 as [l2 [sM2 [ys [T2 [G2 [F2 [R2' P2]]]]]]]. exists l2, sM2, (y :: ys).
          split; [eapply steps_trans; eauto|]. split.
          { cbn [CodeModel.gets]. rewrite (pres_get s1 l1 l2 v y P2); auto.
            - rewrite G2. reflexivity.
            - rewrite (x_cnt _ _ _ S1). rewrite one_occ, one_same. lia. }
          split; [constructor; auto|]. split; auto. eapply pres_trans; [exact M1| |exact P2]. split; auto.
        * destruct D2 as [N2 [o' [sM2 [T2 [O2 R2']]]]]. split; auto. exists o', sM2. split; auto. eapply steps_stops; eauto.
      + rewrite Q. assert (goodL s (length (bare s)) (length (bare s2)) (v :: vs) l sM (LFail oo sE1)).
        { split; auto. exists o', sM1. auto. }
        destruct Nv as [N1 N2]. destruct oo; auto.
        * destruct (N1 v0); auto.
        * destruct (N2 f args); auto.
  Qed.

  Lemma gets_app_one : forall l vs v ys y, gets l vs = Some ys -> get l v = Some y -> gets l (vs ++ [v]) = Some (ys ++ [y]).
  Proof.
    intros l vs v. induction vs as [|w vs IH]; intros ys y H1 H2; cbn in *.
    - injection H1 as <-. rewrite H2. reflexivity.
    - destruct (get l w); try discriminate. destruct (gets l vs) as [q|]; try discriminate. injection H1 as <-.
      rewrite (IH q y); auto.
  Qed.

  Lemma ok_copy : forall k exit src fs, spec (compile k) false src -> Forall (spec_o (compile k)) fs ->
    spec (compile (S k)) exit (TCopy src fs).
  Proof.
    intros k exit src fs Sp F bs s W Ev Iv. cbn [wf] in W. apply andb_true_iff in W. destruct W as [W1 W2].
    cbn [compile]. destruct (Sp bs s W1 Ev Iv) as [r [s1 [E1 [N1 [S1 D1]]]]]. destruct N1 as [sv ->]; auto. rewrite E1.
    pose proof (x_ext _ _ _ S1) as X1. destruct (spec_inv _ _ _ S1 Iv) as [Iv1 [M1 P1]].
    assert (Csv : 0 < cnt s1 sv) by (rewrite (x_cnt _ _ _ S1), one_occ, one_same; lia).
    destruct (compile_fields_spec (compile k) sv fs F 0 bs s1) as [vs [s2 [E2 [X2 [C2 D2]]]]]; auto.
    { rewrite (e_srefs _ _ X1), (e_arefs _ _ X1). auto. }
    { eapply envok_ext; eauto. }
    rewrite E2. destruct (new_local s2) as [d s3] eqn:N.
    assert (C02 : forall v, cnt s2 v = cnt s v + occ v (map Some (vs ++ [sv]))).
    { intros v. rewrite C2, (x_cnt _ _ _ S1), map_app, occ_app. cbn [map]. lia. }
    destruct (finish exit (IStruct vs) (vs ++ [sv]) s s2 d s3 _ (ext_trans _ _ _ X1 X2) C02 N eq_refl) as [s4 [E4 [S4 [P4 [L4 D4]]]]].
    rewrite releases_app in E4. cbv zeta. destruct (releases vs _) as [s5|] eqn:E5; try discriminate. rewrite releases_one in E4.
    rewrite E4. exists (Some (Local d)), s4. split; auto. split; [eauto|]. split; auto.
    intros l env sM sE Sd A L Vr R. cbn [CompileEval.ev].
    assert (A1 : agree s s1) by (eapply agree_sub; [exact A|apply pref_refl|eapply pref_trans; [apply pref_ext; eauto|auto]]).
    assert (A2 : agree s1 s2) by (eapply agree_sub; [exact A|auto|auto]).
    pose proof (e_slots _ _ X2) as Ls2.
    specialize (D1 l env sM sE Sd A1 ltac:(lia) Vr R). apply good_sub in D1.
    destruct D1 as [[x [sE1 [w [l1 [sM1 [y [Q [Hv [T [G [Vy [R1 Pr1]]]]]]]]]]]] | [o [sE1 [o' [sM1 [Q [Nv [T [O R1]]]]]]]]].
    - rewrite Q. injection Hv as <-. eapply good_steps; [exact M1|exact T|exact Pr1|].
      assert (V1 : vrels l1 (vars s1) env).
      { rewrite (e_vars _ _ X1). eapply pres_vrels; [exact Pr1| |exact Vr]. apply Iv. }
      pose proof (proj1 Pr1) as PL.
      specialize (D2 l1 env sM1 sE1 y x (sides_ext _ _ X1 Sd) A2 ltac:(lia) V1 R1 G Vy). unfold goodL in D2.
      assert (M2 : mono s1 s2) by (intros v; rewrite C2; lia).
      destruct (ev_fields (fun e s => ev false e env s) x 0 fs sE1) as [xs sE2|o sE2].
      + destruct D2 as [l2 [sM2 [ys [T2 [G2 [Fv [R2 P2]]]]]]].
        eapply good_steps; [exact M2|exact T2|exact P2|]. pose proof (proj1 P2) as PL2.
        destruct (D4 l2 sM2 sE2 A ltac:(lia) R2) as [Gd _]. apply (Gd _ (VStruct ys)); [constructor; auto|].
        intros sM' Hr pc. cbn [CodeModel.exec]. rewrite G2. reflexivity.
      + destruct D2 as [N1 [o' [sM' [T2 [O R']]]]]. eapply good_fail; eauto.
    - rewrite Q. assert (Gf : good exit s (length (bare s)) (length (bare s4)) (Some (Local d)) l sM (o, sE1)) by (eapply good_fail; eauto).
      destruct Nv as [N1 N2]. destruct o; auto. destruct (N1 v); auto. destruct (N2 f args); auto.
  Qed.

  (** ** Applications *)
  Lemma spine_fst : forall g acc, fst (spine g acc) = fst (spine g []) /\ snd (spine g acc) = snd (spine g []) ++ acc.
  Proof.
    induction g using tc_ind'; intros acc; cbn; auto. destruct (IHg1 (g2 :: acc)) as [A1 A2]. destruct (IHg1 [g2]) as [B1 B2].
    split; [congruence|]. rewrite A2, B2. rewrite <- app_assoc. reflexivity.
  Qed.

  Definition apply_values (exit : bool) (fv : eval_val) (xs : list eval_val) (s : eval_st) : res tc :=
    if exit then
      match strict_value (refs s) fv with
      | SUndef => (Abort, s)
      | SBad => (Crash, s)
      | SVal fn => match num_args_of fn with Some _ => (Tail fv xs, s) | None => (Crash, s) end
      end
    else
      match callE s fv xs with
      | (Tail _ _, s) => (Crash, s)
      | r => r
      end.

  Lemma ev_apply : forall exit f a env s h args, spine (TApply f a) [] = (h, args) ->
    ev exit (TApply f a) env s =
      match ev false h env s with
      | (Ret fv, s) =>
        match ev_list (fun e s => ev false e env s) (rev args) s with
        | LOk vs s => apply_values exit fv (rev vs) s
        | LFail o s => (o, s)
        end
      | (Tail _ _, s) => (Crash, s)
      | (o, s) => (o, s)
      end.
  Proof.
    intros exit f a env s h args Sp. cbn [spine] in Sp. destruct (spine_fst f [a]) as [A1 A2]. rewrite Sp in A1, A2. cbn [fst snd] in A1, A2.
    cbn [CompileEval.ev].
    match goal with |- (match ?x with _ => _ end = _) => assert (Hd : x = ev false h env s) end.
    { rewrite A1. clear. induction f using tc_ind'; try reflexivity. cbn [spine]. destruct (spine_fst f1 [f2]) as [B1 _]. rewrite B1. exact IHf1. }
    rewrite Hd. clear Hd. destruct (ev false h env s) as [[fv| | | |] s1]; try reflexivity.
    rewrite A2, rev_app_distr. cbn [rev app ev_list].
    destruct (ev false a env s1) as [[v| | | |] s2]; try reflexivity.
    match goal with |- (match ?x with _ => _ end = _) => assert (Hr : x = ev_list (fun e s => ev false e env s) (rev (snd (spine f []))) s2) end.
    { clear. revert s2. induction f using tc_ind'; intros s2; try reflexivity. cbn [spine]. destruct (spine_fst f1 [f2]) as [_ B2].
      rewrite B2, rev_app_distr. cbn [rev app ev_list]. destruct (ev false f2 env s2) as [[v| | | |] s3]; try reflexivity.
      rewrite IHf1. reflexivity. }
    rewrite Hr. clear Hr. destruct (ev_list (fun e s => ev false e env s) (rev (snd (spine f []))) s2) as [vs s3|o s3]; reflexivity.
  Qed.

  Lemma gets_rev : forall l vs ys, gets l vs = Some ys -> gets l (rev vs) = Some (rev ys).
  Proof.
    intros l vs. induction vs as [|v vs IH]; intros ys H; cbn in H.
    - injection H as <-. reflexivity.
    - destruct (get l v) as [y|] eqn:Ey; try discriminate. destruct (gets l vs) as [q|]; try discriminate. injection H as <-.
      cbn [rev]. apply gets_app_one; auto.
  Qed.

  Lemma F2_rev : forall {A B} (R : A -> B -> Prop) l l', Forall2 R l l' -> Forall2 R (rev l) (rev l').
  Proof. induction 1; cbn; auto. apply Forall2_app; auto. Qed.

  Lemma occ_rev : forall v l, occ v (rev l) = occ v l.
  Proof. induction l as [|[w|] l IH]; cbn; auto; rewrite occ_app, IH; cbn; lia. Qed.

  Lemma size_in : forall l e, In e l -> size e <= sizes l.
  Proof.
    induction l as [|x l IH]; intros e [].
    - subst. cbn. lia.
    - specialize (IH _ H). cbn. fold (sizes l). lia.
  Qed.

  Lemma ok_apply : forall k exit f a, (forall e, size e <= k -> spec (compile k) false e) -> size (TApply f a) <= S k ->
    spec (compile (S k)) exit (TApply f a).
  Proof.
    intros k exit f a Sp Sz bs s W Ev Iv. cbn [compile].
    destruct (spine (TApply f a) []) as [h args] eqn:Spn.
    destruct (spine_spec _ _ _ _ Spn) as [_ [_ [Sz2 [Wsp _]]]].
    specialize (Sz2 f a eq_refl). destruct (Wsp _ _ _ W eq_refl) as [Wh Wa].
    change (sizes []) with 0 in Sz2.
    destruct (Sp h ltac:(lia) bs s Wh Ev Iv) as [r [s1 [E1 [N1 [S1 D1]]]]]. destruct N1 as [fv ->]; auto. rewrite E1.
    pose proof (x_ext _ _ _ S1) as X1. destruct (spec_inv _ _ _ S1 Iv) as [Iv1 [M1 P1]].
    assert (Hargs : Forall (spec (compile k) false) (rev args)).
    { apply Forall_rev. apply Forall_forall. intros e He. apply Sp.
      pose proof (size_in _ _ He). lia. }
    destruct (compile_list_spec (compile k) (rev args) Hargs bs s1) as [ravs [s2 [E2 [X2 [C2 [R2 [L2 D2]]]]]]]; auto.
    { rewrite (e_srefs _ _ X1), (e_arefs _ _ X1). rewrite forallb_forall in Wa |- *. intros e He. apply Wa. apply in_rev. auto. }
    { eapply envok_ext; eauto. }
    rewrite E2.
    assert (M2 : mono s1 s2) by (intros v; rewrite C2; lia).
    (* the call *)
    set (dst := if exit then (0, s2) else new_local s2).
    assert (Hd : exists dest s3, dst = (dest, s3) /\ ext s2 s3 /\ (forall v, cnt s3 v = cnt s2 v + if exit then 0 else one (Local dest) v) /\
        (exit = false -> inrange s3 (Local dest)) /\ instrs s3 = instrs s2 /\ (exit = false -> cnt s2 (Local dest) = 0)).
    { unfold dst. destruct exit.
      - exists 0, s2. split; auto. split; [apply ext_refl|]. split; [intros; lia|]. split; [discriminate|]. split; auto. discriminate.
      - destruct (new_local s2) as [d s3] eqn:N. destruct (new_local_spec _ _ _ N) as [C0 [E [C [R J]]]]. exists d, s3. repeat (split; [solve [auto]|]). auto. }
    destruct Hd as [dest [s3 [-> [X3 [C3 [R3 [I3 C0]]]]]]].
    set (ins := if exit then ITail fv (rev ravs) else ICall fv (rev ravs) dest).
    destruct (append_instr_spec ins s3) as [Q1 [Q2 [Q3 Q4]]].
    destruct (new_basic_block_spec (append_instr ins s3)) as [B1 [B2 B3]].
    set (s4 := new_basic_block (append_instr ins s3)) in *.
    assert (X34 : ext s3 s4) by (eapply ext_trans; [apply append_instr_ext|exact B2]).
    assert (C4 : forall v, cnt s4 v = cnt s3 v) by (intros v; rewrite (same_counts_cnt _ _ _ B1), (same_counts_cnt _ _ _ Q1); auto).
    destruct (releases_spec (fv :: rev ravs) s4) as [s5 [E5 [X5 [C5 [I5 L5]]]]].
    { intros v. rewrite C4, C3, C2, (x_cnt _ _ _ S1). rewrite map_cons, map_rev. cbn [occ]. rewrite occ_rev. lia. }
    cbn [releases] in E5. cbv zeta. destruct (release (Some fv) s4) as [s45|]; try discriminate. rewrite E5.
    assert (Bs3 : bare s3 = bare s2) by (unfold bare; rewrite I3; reflexivity).
    assert (Bs5 : bare s5 = bare s2 ++ [ins]).
    { replace (bare s5) with (bare s4) by (unfold bare; rewrite I5; reflexivity). rewrite B3, Q3, Bs3. reflexivity. }
    assert (P25 : pref s2 s5) by (exists [ins]; auto).
    assert (Sl : length (slots s2) <= length (slots s5)) by (pose proof (e_slots _ _ X3); pose proof (e_slots _ _ X34); lia).
    eexists. eexists. split; [reflexivity|]. split; [intros ->; eauto|]. split.
    - constructor.
      + eapply ext_trans; [exact X1|]. eapply ext_trans; [exact X2|]. eapply ext_trans; [exact X3|]. eapply ext_trans; [exact X34|exact X5].
      + intros v. specialize (C5 v). rewrite C4, C3, C2, (x_cnt _ _ _ S1) in C5. rewrite map_cons, map_rev in C5. cbn [occ] in C5. rewrite occ_rev in C5.
        destruct exit; cbn [occ] in *; unfold one in *; lia.
      + intros v Hv. destruct exit; try discriminate. injection Hv as <-.
        eapply inrange_ext; [exact X5|]. eapply inrange_ext; [exact X34|]. auto.
    - intros l env sM sE Sd A L Vr R. rewrite (ev_apply _ _ _ _ _ _ _ Spn).
      assert (A1 : agree s s1) by (eapply agree_sub; [exact A|apply pref_refl|eapply pref_trans; [apply pref_ext; eauto|auto]]).
      assert (A2 : agree s1 s2) by (eapply agree_sub; [exact A|auto|auto]).
      pose proof (e_slots _ _ X2) as Ls2.
      specialize (D1 l env sM sE Sd A1 ltac:(lia) Vr R). apply good_sub in D1.
      destruct D1 as [[x [sE1 [w [l1 [sM1 [y [Q [Hv [T [G [Vy [R1 Pr1]]]]]]]]]]]] | [o [sE1 [o' [sM1 [Q [Nv [T [O R1]]]]]]]]].
      + rewrite Q. injection Hv as <-. eapply good_steps; [exact M1|exact T|exact Pr1|].
        assert (V1 : vrels l1 (vars s1) env).
        { rewrite (e_vars _ _ X1). eapply pres_vrels; [exact Pr1| |exact Vr]. apply Iv. }
        pose proof (proj1 Pr1) as PL.
        specialize (D2 l1 env sM1 sE1 (sides_ext _ _ X1 Sd) A2 ltac:(lia) V1 R1). unfold goodL in D2.
        destruct (ev_list (fun e s => ev false e env s) (rev args) sE1) as [xs sE2|o sE2].
        * destruct D2 as [l2 [sM2 [ys [T2 [G2 [Fv [R2' P2]]]]]]].
          eapply good_steps; [exact M2|exact T2|exact P2|]. pose proof (proj1 P2) as PL2.
          assert (Gf : get l2 fv = Some y).
          { eapply pres_get; [exact P2| |exact G]. rewrite (x_cnt _ _ _ S1), one_occ, one_same. lia. }
          pose proof (gets_rev _ _ _ G2) as Ga.
          destruct (agree_at s s5 (length (bare s2)) ins A) as [ops Hops].
          { pose proof (pref_len _ _ P1). pose proof (pref_len _ _ (pref_ext _ _ X2)). lia. }
          { rewrite Bs5, nth_error_app2, Nat.sub_diag by lia. reflexivity. }
          pose proof (do_ops_srel blk ops _ _ R2') as R3'. set (sM3 := do_ops blk ops sM2) in *.
          assert (Lb5 : length (bare s5) = S (length (bare s2))) by (rewrite Bs5, app_length; cbn; lia).
          unfold apply_values. destruct exit.
          -- pose proof (strict_value_rel _ _ _ _ R3' Vy) as SR. unfold good.
             assert (Ex : CodeModel.exec callM blk stM argM ins (length (bare s2)) l2 sM3 =
               match strict_value (refs sM3) y with
               | SUndef => Stop Abort sM3 | SBad => Stop Crash sM3
               | SVal fn => match num_args_of fn with Some _ => Stop (Tail y (rev ys)) sM3 | None => Stop Crash sM3 end end).
             { unfold ins. cbn [CodeModel.exec]. rewrite Gf, Ga. destruct (strict_value (refs sM3) y) as [fn| |]; auto. }
             destruct (strict_value (refs sM3) y) as [y1| |] eqn:EM; inversion SR as [y1' x1 V1' NR Ea Eb|Ea Eb|Ea Eb]; subst.
             ++ rewrite (num_args_rel _ _ V1') in Ex. destruct (num_args_of x1).
                ** eexists. eexists. split; [eapply stops_stop; [exact Hops|exact Ex]|]. split; auto. constructor; auto. apply F2_rev. auto.
                ** eexists. eexists. split; [eapply stops_stop; [exact Hops|exact Ex]|]. split; auto. constructor.
             ++ eexists. eexists. split; [eapply stops_stop; [exact Hops|exact Ex]|]. split; auto. constructor.
             ++ eexists. eexists. split; [eapply stops_stop; [exact Hops|exact Ex]|]. split; auto. constructor.
          -- assert (Ltd : dest <? length l2 = true).
             { apply Nat.ltb_lt. specialize (R3 eq_refl). pose proof (inrange_ext _ _ _ X34 R3) as R4. pose proof (inrange_ext _ _ _ X5 R4) as R5. cbn in R5. lia. }
             destruct (Hcall sM3 sE2 y x (rev ys) (rev xs) R3' Vy (F2_rev _ _ _ Fv)) as [O Rs].
             destruct (callM sM3 y (rev ys)) as [oM tM] eqn:CM, (callE sE2 x (rev xs)) as [oE tE] eqn:CE. cbn [fst snd] in O, Rs.
             assert (Ex : CodeModel.exec callM blk stM argM ins (length (bare s2)) l2 sM3 =
               match oM with Ret v => put (S (length (bare s2))) dest v l2 tM | Tail _ _ => Stop Crash tM | o => Stop o tM end).
             { unfold ins. cbn [CodeModel.exec]. rewrite Gf, Ga, CM, Ltd. destruct oM; auto. }
             assert (Fail : forall o o', noval o' -> outrel o o' -> CodeModel.exec callM blk stM argM ins (length (bare s2)) l2 sM3 = Stop o tM ->
               good false s2 (length (bare s2)) (length (bare s5)) (Some (Local dest)) l2 sM2 (o', tE)).
             { intros o o' Nv Ho He. eapply good_fail; [exact Nv| |exact Ho|exact Rs]. eapply stops_stop; [exact Hops|exact He]. }
             destruct O as [u v Vuv|g1 g2 as1 as2 Vg Vas| | |].
             ++ unfold put in Ex. rewrite Ltd in Ex.
                unfold good. cbn [fst snd]. exists (Local dest), (set_nth dest (Some u) l2), tM, u. split; auto. split.
                { rewrite Lb5. eapply steps_step; [exact Hops|exact Ex|lia|apply steps_refl]. }
                split.
                { cbn. rewrite nth_error_set_nth, Nat.eqb_refl, Ltd. auto. }
                split; auto. split; auto. apply pres_put. auto.
             ++ apply (Fail Crash); auto; [split; discriminate|constructor].
             ++ apply (Fail Abort); auto; [split; discriminate|constructor].
             ++ apply (Fail Crash); auto; [split; discriminate|constructor].
             ++ apply (Fail Timeout); auto; [split; discriminate|constructor].
        * destruct D2 as [N1 [o' [sM' [T2 [O R']]]]]. eapply good_fail; eauto.
      + rewrite Q. match goal with |- good ?ex ?a ?b ?c ?d ?e ?f _ => assert (Gf : good ex a b c d e f (o, sE1)) by (eapply good_fail; eauto) end.
        destruct Nv as [N1 N2]. destruct o; auto. destruct (N1 v); auto. destruct (N2 f0 args0); auto.
  Qed.

  (** ** Let *)
  Definition extv (s s' : cs) : Prop := ext (with_vars (vars s') s) s'.

  Lemma cnt_with_vars : forall x s v, cnt (with_vars x s) v = cnt s v.
  Proof. intros x s [?|?|?]; reflexivity. Qed.
  Lemma extv_refl : forall s, extv s s.
  Proof. intros s. unfold extv. destruct s. apply ext_refl. Qed.
  Lemma ext_extv : forall s s', ext s s' -> extv s s'.
  Proof. intros s s' []. constructor; auto. Qed.
  Lemma extv_with_vars : forall x s, extv s (with_vars x s).
  Proof. intros. apply ext_refl. Qed.
  Lemma extv_trans : forall a b c, extv a b -> extv b c -> extv a c.
  Proof.
    intros a b c X Y. destruct X as [x1 x2 x3 x4 x5 x6 x7 x8], Y as [y1 y2 y3 y4 y5 y6 y7 y8]. unfold bare in *. cbn in *.
    constructor; unfold bare; cbn; try congruence; try lia; auto.
    destruct x8 as [x E], y8 as [y F]. exists (x ++ y). rewrite F, E, app_assoc. reflexivity.
  Qed.
  Lemma extv_ext : forall s s', extv s s' -> vars s' = vars s -> ext s s'.
  Proof. intros s s' [] H. constructor; auto. Qed.
  Lemma pref_extv : forall s s', extv s s' -> pref s s'.
  Proof. intros s s' E. apply (e_code _ _ E). Qed.
  Lemma inrange_extv : forall s s' v, extv s s' -> inrange s v -> inrange s' v.
  Proof. intros s s' v E R. eapply inrange_ext; [exact E|]. destruct v; exact R. Qed.
  Lemma sides_extv : forall s s', extv s s' -> sides s -> sides s'.
  Proof. intros s s' E H. eapply sides_ext; [exact E|]. exact H. Qed.

  Definition loc (d : nat) : option var := Some (Local d).

  Lemma let_vars_false : forall n s, let_vars false n s = ([], with_vars (vars s ++ repeat None n) s).
  Proof.
    induction n; intros s; cbn.
    - rewrite app_nil_r. destruct s; reflexivity.
    - rewrite IHn. unfold push_var. cbn. rewrite <- app_assoc. reflexivity.
  Qed.

  Lemma let_vars_true : forall n s ds s', let_vars true n s = (ds, s') ->
    length ds = n /\ vars s' = vars s ++ map loc ds /\ extv s s' /\
    (forall v, cnt s' v = cnt s v + occ v (map loc ds)) /\ Forall (fun d => inrange s' (Local d)) ds /\
    forall l sM sE, agree s s' -> length (slots s') <= length l -> srel sM sE ->
      exists l' sM', steps (length (bare s)) l sM (length (bare s')) l' sM' /\
        vrels l' (map loc ds) (map Some (fst (alloc_refs n sE))) /\ srel sM' (snd (alloc_refs n sE)) /\ pres s l l'.
  Proof.
    induction n; intros s ds s' H.
    - cbn in H. injection H as <- <-. cbn. rewrite app_nil_r. split; auto. split; auto. split; [apply extv_refl|]. split; [intros; lia|]. split; [constructor|].
      intros l sM sE A L R. exists l, sM. split; [apply steps_refl|]. split; [constructor|]. split; auto. apply pres_refl.
    - cbn [let_vars] in H. destruct (new_local s) as [d s1] eqn:N.
      destruct (new_local_spec _ _ _ N) as [C0 [E [C [R J]]]].
      destruct (append_instr_spec (IRef d) s1) as [A1 [A2 [A3 A4]]].
      pose proof (append_instr_ext (IRef d) s1) as Xa.
      set (s2 := append_instr (IRef d) s1) in *.
      set (s3 := push_var (Some (Local d)) s2) in *.
      destruct (let_vars true n s3) as [ds' s4] eqn:E4. injection H as <- <-.
      destruct (IHn s3 ds' s4 E4) as [L4 [V4 [X4 [C4 [R4 D4]]]]].
      assert (Vs : vars s2 = vars s) by (rewrite (e_vars _ _ Xa), (e_vars _ _ E); reflexivity).
      assert (X3 : extv s s3).
      { eapply extv_trans; [apply ext_extv; exact E|]. eapply extv_trans; [apply ext_extv; exact Xa|]. apply extv_with_vars. }
      assert (C3 : forall v, cnt s3 v = cnt s v + one (Local d) v).
      { intros v. unfold s3, push_var. rewrite cnt_with_vars. unfold s2. rewrite append_instr_cnt. apply C. }
      assert (B3 : bare s3 = bare s ++ [IRef d]).
      { change (bare s3) with (bare s2). rewrite A3. unfold bare. rewrite J. reflexivity. }
      split; [cbn; lia|]. split.
      { rewrite V4. unfold s3, push_var. cbn. rewrite Vs, <- app_assoc. reflexivity. }
      split; [eapply extv_trans; eauto|]. split.
      { intros v. rewrite C4, C3. cbn [map occ loc]. unfold one. lia. }
      split.
      { constructor; auto. eapply inrange_extv; [exact X4|]. change (inrange s2 (Local d)). eapply inrange_ext; eauto. }
      intros l sM sE A L Rs.
      assert (P3 : pref s3 s4) by (apply pref_extv; auto).
      destruct (agree_at s s4 (length (bare s)) (IRef d) A) as [ops Hops]; auto.
      { rewrite (pref_nth s3 s4); auto.
        - rewrite B3, nth_error_app2, Nat.sub_diag by lia. reflexivity.
        - rewrite B3, app_length. cbn. lia. }
      pose proof (do_ops_srel blk ops _ _ Rs) as Rs1. set (sM1 := do_ops blk ops sM) in *.
      destruct (new_ref_rel _ _ Rs1) as [Vr Rr].
      assert (Dl : d < length l).
      { assert (inrange s4 (Local d)). { eapply inrange_extv; [exact X4|]. change (inrange s2 (Local d)). eapply inrange_ext; eauto. } cbn in H. lia. }
      assert (Ex : exec (IRef d) (length (bare s)) l sM1 = Next (S (length (bare s))) (set_nth d (Some (fst (new_ref sM1))) l) (snd (new_ref sM1))).
      { cbn [CodeModel.exec]. destruct (new_ref sM1) as [rv t] eqn:Nr. unfold put. replace (d <? length l) with true by (symmetry; apply Nat.ltb_lt; auto). reflexivity. }
      assert (A' : agree s3 s4) by (eapply agree_sub; [exact A|apply pref_extv; exact X3|apply pref_refl]).
      destruct (D4 (set_nth d (Some (fst (new_ref sM1))) l) (snd (new_ref sM1)) (snd (new_ref sE)) A') as [l' [sM' [T [V' [R' P']]]]]; auto.
      { rewrite set_nth_length. auto. }
      cbn [alloc_refs]. destruct (new_ref sE) as [re sE1] eqn:Nr. cbn [fst snd] in *.
      destruct (alloc_refs n sE1) as [rs sE2] eqn:Al. cbn [fst snd] in *.
      exists l', sM'. split.
      { eapply steps_step; [exact Hops|exact Ex|lia|]. rewrite B3, app_length in T. cbn [length] in T. rewrite Nat.add_1_r in T. exact T. }
      split; [|split; auto].
      + cbn [map]. constructor; auto. unfold loc at 1. cbn [lrel]. exists (fst (new_ref sM1)). split; auto.
        eapply pres_get; [exact P'| |].
        * rewrite C3, one_same. lia.
        * cbn. rewrite nth_error_set_nth, Nat.eqb_refl. replace (d <? length l) with true by (symmetry; apply Nat.ltb_lt; auto). reflexivity.
      + eapply pres_trans; [|apply pres_put; exact C0|exact P']. intros v. rewrite C3. lia.
  Qed.

  (** Compiling an expression in a block of its own. *)
  Definition in_block (comp : bool -> tc -> cs -> option (option var * cs)) (exit : bool) (e : tc) (s : cs) : option (option var * cs) :=
    match comp exit e (enter_block exit s) with
    | Some (r, s) => match exit_block exit s with Some s => Some (r, s) | None => None end
    | None => None
    end.

  Lemma in_block_spec : forall comp exit e, spec comp exit e -> spec (in_block comp) exit e.
  Proof.
    intros comp exit e Sp bs s W Ev Iv. unfold in_block.
    destruct (enter_block_spec exit s) as [id [[A1 [A2 [A3 [A4 A5]]]] [B1 B2]]].
    destruct (Sp bs (enter_block exit s)) as [r [s1 [E1 [N1 [S1 D1]]]]].
    { rewrite A1, A2. auto. }
    { unfold envok. rewrite A4. auto. }
    { unfold inv, base, inrange, cnt. rewrite A1, A2, A3, A4. auto. }
    rewrite E1. pose proof (x_ext _ _ _ S1) as X1.
    destruct (ext_enter exit s s1 X1) as [C [_ [[id' Bs] Xf]]].
    destruct (exit_block_spec exit s1 id' (bstack s) Bs) as [s2 [E2 [Sc [Bs2 [Bc Ls]]]]]. rewrite E2.
    pose proof (Xf s2 Sc Bs2 Bc) as X2.
    exists r, s2. split; auto. split; auto. split.
    - constructor; auto.
      + intros v. rewrite (same_counts_cnt _ _ _ Sc), (x_cnt _ _ _ S1), C. reflexivity.
      + intros v Hv. pose proof (x_range _ _ _ S1 v Hv) as Rv. destruct Sc as [S_1 [S_2 [S_3 _]]].
        destruct v; cbn in *; rewrite ?S_1, ?S_2, ?S_3; auto.
    - intros l env sM sE Sd A L V R.
      specialize (D1 l env sM sE). rewrite B2, <- Bc in D1. unfold good in *.
      assert (D1' : sides (enter_block exit s) /\ agree (enter_block exit s) s1 /\ length (slots s1) <= length l /\ vrels l (vars (enter_block exit s)) env).
      { split; [unfold sides; rewrite A1, A2; auto|]. split.
        - intros pc Lp. rewrite B2 in Lp. rewrite <- Bc in Lp |- *. apply A. auto.
        - split; [lia|]. rewrite A4. auto. }
      destruct D1' as [T1 [T2 [T3 T4]]]. specialize (D1 T1 T2 T3 T4 R).
      destruct exit; auto. destruct (fst (ev false e env sE)); auto.
      destruct D1 as [w [l' [sM' [y [G1 [G2 [G3 [G4 [G5 [G6 G7]]]]]]]]]]. exists w, l', sM', y. repeat (split; auto).
      intros i Hi. apply G7. rewrite C. auto.
  Qed.

  Lemma let_defs_block : forall comp es s, let_defs comp es s = compile_list (in_block comp) es s.
  Proof.
    induction es as [|e es IH]; intros s; auto. cbn [let_defs compile_list]. unfold in_block at 1.
    destruct (comp false e (enter_block false s)) as [[[v|] s1]|]; auto.
    - destruct (exit_block false s1); auto. rewrite IH. reflexivity.
    - destruct (exit_block false s1); auto.
  Qed.

  Lemma set_nth_mid : forall {A} (pre : list A) o x r, set_nth (length pre) x (pre ++ o :: r) = pre ++ x :: r.
  Proof. induction pre; intros; cbn; auto. rewrite IHpre. reflexivity. Qed.

  Lemma set_var_spec : forall pre old rest v s, vars s = pre ++ old :: rest ->
    (forall w, old = Some w -> 0 < cnt s w) ->
    exists s', set_var (length pre) v s = Some s' /\ vars s' = pre ++ Some v :: rest /\ extv s s' /\
      (forall w, cnt s' w + occ w [old] = cnt s w) /\ instrs s' = instrs s /\ length (slots s') = length (slots s).
  Proof.
    intros pre old rest v s Hv Hc. unfold set_var. rewrite Hv.
    rewrite nth_error_app2, Nat.sub_diag by lia. cbn [nth_error].
    assert (E : exists s1, release old s = Some s1 /\ ext s s1 /\ (forall w, cnt s1 w + occ w [old] = cnt s w) /\ instrs s1 = instrs s /\ length (slots s1) = length (slots s)).
    { destruct old as [w|].
      - destruct (release_spec s w (Hc w eq_refl)) as [s1 [E1 [X1 [C1 [I1 L1]]]]]. exists s1. split; auto. split; auto. split; auto.
        intros u. rewrite one_occ. auto.
      - exists s. split; auto. split; [apply ext_refl|]. split; auto. }
    destruct E as [s1 [E1 [X1 [C1 [I1 L1]]]]]. rewrite E1. eexists. split; [reflexivity|]. cbn [vars with_vars instrs slots].
    rewrite (e_vars _ _ X1), Hv, set_nth_mid. split; auto. split.
    - eapply extv_trans; [apply ext_extv; exact X1|]. apply extv_with_vars.
    - split; [intros w; rewrite cnt_with_vars; auto|auto].
  Qed.

  Lemma app_cons_assoc : forall {A} (a : list A) x b, a ++ x :: b = (a ++ [x]) ++ b.
  Proof. intros. rewrite <- app_assoc. reflexivity. Qed.

  (** Without references: nothing is executed. *)
  Lemma let_sets_false : forall defs pre s, vars s = pre ++ repeat None (length defs) ->
    exists s', let_sets [] (length pre) defs s = Some s' /\ vars s' = pre ++ map Some defs /\ extv s s' /\
      (forall w, cnt s' w = cnt s w) /\ instrs s' = instrs s /\ length (slots s') = length (slots s).
  Proof.
    induction defs as [|v defs IH]; intros pre s Hv.
    - exists s. cbn. split; auto. split; auto. split; [apply extv_refl|]. split; auto.
    - cbn [length repeat] in Hv. destruct (set_var_spec pre None _ v s Hv) as [s1 [E1 [V1 [X1 [C1 [I1 L1]]]]]]; [discriminate|].
      cbn [let_sets tl]. rewrite E1. rewrite app_cons_assoc in V1.
      destruct (IH (pre ++ [Some v]) s1 V1) as [s2 [E2 [V2 [X2 [C2 [I2 L2]]]]]].
      rewrite app_length, Nat.add_1_r in E2. exists s2. split; auto. split; [rewrite V2, <- app_assoc; reflexivity|].
      split; [eapply extv_trans; eauto|]. split; [|split; congruence].
      intros w. rewrite C2. specialize (C1 w). cbn [occ] in C1. lia.
  Qed.

  Lemma let_sets_true : forall defs ds pre s, length ds = length defs -> vars s = pre ++ map loc ds ->
    (forall w, occ w (map loc ds) <= cnt s w) ->
    exists s', let_sets ds (length pre) defs s = Some s' /\ vars s' = pre ++ map Some defs /\ extv s s' /\
      (forall w, cnt s' w + occ w (map loc ds) = cnt s w) /\ length (slots s') = length (slots s) /\
      forall l sM sE rs xs ys, agree s s' -> vrels l (map loc ds) (map Some rs) -> gets l defs = Some ys -> Forall2 vrel ys xs -> srel sM sE ->
        match assign_refs rs xs sE with
        | (Some (Some sE'), _) => exists sM', steps (length (bare s)) l sM (length (bare s')) l sM' /\ srel sM' sE'
        | (Some None, sE') => exists sM', stops (length (bare s)) l sM Abort sM' /\ srel sM' sE'
        | (None, sE') => exists sM', stops (length (bare s)) l sM Crash sM' /\ srel sM' sE'
        end.
  Proof.
    induction defs as [|v defs IH]; intros ds pre s Hl Hv Hc.
    - destruct ds; try discriminate. exists s. cbn. split; auto. split; auto. split; [apply extv_refl|]. split; [intros; lia|]. split; auto.
      intros l sM sE rs xs ys A V G F R. cbn in G. injection G as <-. inversion F; subst.
      replace (assign_refs rs [] sE) with (Some (Some sE), sE) by (destruct rs; reflexivity). exists sM. split; auto. apply steps_refl.
    - destruct ds as [|d ds]; try discriminate. cbn [let_sets tl]. injection Hl as Hl.
      destruct (append_instr_spec (IRefDef d v) s) as [[_ [_ [_ [Va _]]]] [_ [A3 _]]].
      pose proof (append_instr_ext (IRefDef d v) s) as Xa. pose proof (append_instr_cnt (IRefDef d v) s) as Ca.
      set (s0 := append_instr (IRefDef d v) s) in *.
      cbn [map] in Hv. rewrite <- Va in Hv.
      destruct (set_var_spec pre (loc d) _ v s0 Hv) as [s1 [E1 [V1 [X1 [C1 [I1 L1]]]]]].
      { intros w Hw. injection Hw as <-. rewrite Ca. specialize (Hc (Local d)). cbn [map occ loc] in Hc. destruct (var_dec (Local d) (Local d)); [lia|congruence]. }
      rewrite E1. rewrite app_cons_assoc in V1.
      destruct (IH ds (pre ++ [Some v]) s1 Hl V1) as [s2 [E2 [V2 [X2 [C2 [L2 D2]]]]]].
      { intros w. specialize (C1 w). specialize (Hc w). rewrite Ca in C1. cbn [map occ loc] in Hc, C1. lia. }
      rewrite app_length, Nat.add_1_r in E2. exists s2. split; auto. split; [rewrite V2, <- app_assoc; reflexivity|].
      assert (X01 : extv s s1) by (eapply extv_trans; [apply ext_extv; exact Xa|exact X1]).
      split; [eapply extv_trans; eauto|]. split.
      { intros w. specialize (C1 w). specialize (C2 w). rewrite Ca in C1. cbn [map occ loc] in *. lia. }
      assert (Sl : length (slots s0) = length (slots s)).
      { unfold s0. destruct (append_instr_spec (IRefDef d v) s) as [[_ [_ [Sl _]]] _]. rewrite Sl. reflexivity. }
      split; [congruence|].
      intros l sM sE rs xs ys A V G F R. cbn [CodeModel.gets] in G.
      destruct (get l v) as [y|] eqn:Gv; try discriminate. destruct (gets l defs) as [ys'|] eqn:Gd; try discriminate. injection G as <-.
      destruct rs as [|r rs]; cbn [map] in V; inversion V as [|ov ox vs env Hr Vrest]; subst.
      inversion F as [|y' x' ys'' xs' Vx Fx]; subst. cbn [lrel loc] in Hr. destruct Hr as [ry [Gr Vr]].
      assert (B1 : bare s1 = bare s ++ [IRefDef d v]) by (rewrite <- A3; unfold bare; rewrite I1; reflexivity).
      assert (P12 : pref s1 s2) by (apply pref_extv; auto).
      destruct (agree_at s s2 (length (bare s)) (IRefDef d v) A) as [ops Hops]; auto.
      { rewrite (pref_nth s1 s2); auto.
        - rewrite B1, nth_error_app2, Nat.sub_diag by lia. reflexivity.
        - rewrite B1, app_length. cbn. lia. }
      pose proof (do_ops_srel blk ops _ _ R) as R1. set (sM1 := do_ops blk ops sM) in *.
      pose proof (assign_ref_rel _ _ _ _ _ _ R1 Vr Vx) as As. cbn [assign_refs].
      assert (Ex : exec (IRefDef d v) (length (bare s)) l sM1 =
         match assign_ref sM1 ry y with Some (Some s') => Next (S (length (bare s))) l s' | Some None => Stop Abort sM1 | None => Stop Crash sM1 end).
      { cbn [CodeModel.exec]. rewrite Gr, Gv. reflexivity. }
      destruct (assign_ref sM1 ry y) as [[sM2|]|], (assign_ref sE r x') as [[sE2|]|]; try contradiction.
      + assert (A' : agree s1 s2) by (eapply agree_sub; [exact A|apply pref_extv; exact X01|apply pref_refl]).
        specialize (D2 l sM2 sE2 rs xs' ys' A' Vrest Gd Fx As).
        assert (Lb : length (bare s1) = S (length (bare s))) by (rewrite B1, app_length; cbn; lia). rewrite Lb in D2.
        destruct (assign_refs rs xs' sE2) as [[[sE3|]|] sE3'].
        * destruct D2 as [sM3 [T R3]]. exists sM3. split; auto. eapply steps_step; [exact Hops|exact Ex|lia|exact T].
        * destruct D2 as [sM3 [T R3]]. exists sM3. split; auto. eapply stops_step; [exact Hops|exact Ex|lia|exact T].
        * destruct D2 as [sM3 [T R3]]. exists sM3. split; auto. eapply stops_step; [exact Hops|exact Ex|lia|exact T].
      + exists sM1. split; auto. eapply stops_stop; [exact Hops|exact Ex].
      + exists sM1. split; auto. eapply stops_stop; [exact Hops|exact Ex].
  Qed.

  Lemma pop_vars_spec : forall defs pre s, vars s = pre ++ map Some defs -> (forall w, occ w (map Some defs) <= cnt s w) ->
    exists s', pop_vars (length defs) s = Some s' /\ vars s' = pre /\ extv s s' /\
      (forall w, cnt s' w + occ w (map Some defs) = cnt s w) /\ instrs s' = instrs s /\ length (slots s') = length (slots s).
  Proof.
    intros defs. induction defs as [|v defs IH] using rev_ind; intros pre s Hv Hc.
    - exists s. cbn in *. rewrite app_nil_r in Hv. split; auto. split; auto. split; [apply extv_refl|]. split; auto.
    - rewrite app_length, Nat.add_1_r. cbn [pop_vars]. unfold pop_var. rewrite Hv, map_app, app_assoc. cbn [map].
      rewrite rev_app_distr. cbn [rev app]. rewrite rev_involutive.
      set (s0 := with_vars (pre ++ map Some defs) s).
      destruct (release_spec s0 v) as [s1 [E1 [X1 [C1 [I1 L1]]]]].
      { unfold s0. rewrite cnt_with_vars. specialize (Hc v). rewrite map_app, occ_app in Hc. cbn in Hc. destruct (var_dec v v); [lia|congruence]. }
      rewrite E1. destruct (IH pre s1) as [s2 [E2 [V2 [X2 [C2 [I2 L2]]]]]].
      { rewrite (e_vars _ _ X1). reflexivity. }
      { intros w. specialize (C1 w). specialize (Hc w). unfold s0 in C1. rewrite cnt_with_vars in C1. rewrite map_app, occ_app in Hc. cbn [map] in Hc. rewrite one_occ in Hc. lia. }
      exists s2. split; auto. split; auto. split.
      { eapply extv_trans; [apply (extv_with_vars (pre ++ map Some defs))|]. eapply extv_trans; [apply ext_extv; exact X1|exact X2]. }
      split; [|split; [rewrite I2, I1; reflexivity|rewrite L2, L1; reflexivity]].
      intros w. specialize (C1 w). specialize (C2 w). unfold s0 in C1. rewrite cnt_with_vars in C1. rewrite ?map_app, occ_app. cbn [map]. rewrite one_occ. lia.
  Qed.

  Lemma gets_vrels : forall l vs ys xs, gets l vs = Some ys -> Forall2 vrel ys xs -> vrels l (map Some vs) (map Some xs).
  Proof.
    intros l vs. induction vs as [|v vs IH]; intros ys xs G F; cbn in *.
    - injection G as <-. inversion F; subst. constructor.
    - destruct (get l v) as [y|] eqn:E; try discriminate. destruct (gets l vs) as [q|] eqn:Q; try discriminate. injection G as <-.
      inversion F; subst. cbn. constructor; [cbn; eauto|eapply IH; eauto].
  Qed.

  Lemma vrels_none : forall l n, vrels l (repeat None n) (repeat None n).
  Proof. induction n; cbn; constructor; cbn; auto. Qed.

  Lemma envok_app : forall bs s tl vs s', envok bs s -> vars s' = vars s ++ vs -> length vs = length tl ->
    (forall i, nth i tl false = true -> exists v, nth_error vs i = Some (Some v)) -> envok (bs ++ tl) s'.
  Proof.
    intros bs s tl vs s' [E1 E2] Hv L H. split; [rewrite Hv, !app_length; lia|].
    intros i Hi. rewrite Hv. destruct (Nat.lt_ge_cases i (length bs)).
    - rewrite app_nth1 in Hi by auto. rewrite nth_error_app1 by lia. auto.
    - rewrite app_nth2 in Hi by auto. rewrite nth_error_app2 by lia. rewrite E1. auto.
  Qed.

  Lemma nth_repeat_true : forall i n b, nth i (repeat b n) false = true -> i < n /\ b = true.
  Proof. induction i; intros [|n] b H; cbn in *; try discriminate; try (split; [lia|auto]; fail). destruct (IHi _ _ H). split; auto. lia. Qed.

  Lemma nth_error_map_some : forall {A B} (f : A -> B) (l : list A) i, i < length l -> exists x, nth_error (map (fun a => Some (f a)) l) i = Some (Some (f x)).
  Proof. intros A B f l. induction l; intros [|i] H; cbn in *; try lia; eauto. apply IHl. lia. Qed.

  Lemma ok_let : forall k exit r bnd body, Forall (spec (compile k) false) bnd -> spec (compile k) exit body ->
    spec (compile (S k)) exit (TLet r bnd body).
  Proof.
    intros k exit r bnd body Fb Sb bs s W Ev Iv. cbn [wf] in W. apply andb_true_iff in W. destruct W as [W1 W2].
    cbn [compile].
    (* variables *)
    assert (LV : exists ds s1, let_vars r (length bnd) s = (ds, s1) /\ extv s s1 /\
        let olds := if r then map loc ds else repeat None (length bnd) in
        vars s1 = vars s ++ olds /\ length olds = length bnd /\ (r = true -> length ds = length bnd) /\ (r = false -> ds = []) /\
        (forall v, cnt s1 v = cnt s v + occ v olds) /\ (forall i v, nth_error olds i = Some (Some v) -> inrange s1 v) /\
        forall l sM sE, agree s s1 -> length (slots s1) <= length l -> srel sM sE ->
          let '(rs, sE1) := if r then alloc_refs (length bnd) sE else ([], sE) in
          exists l' sM', steps (length (bare s)) l sM (length (bare s1)) l' sM' /\
            vrels l' olds (if r then map Some rs else repeat None (length bnd)) /\ srel sM' sE1 /\ pres s l l').
    { destruct r.
      - destruct (let_vars true (length bnd) s) as [ds s1] eqn:E. destruct (let_vars_true _ _ _ _ E) as [L1 [V1 [X1 [C1 [R1 D1]]]]].
        exists ds, s1. split; auto. split; auto. cbv zeta. split; auto. split; [rewrite map_length; auto|]. split; [auto|]. split; [discriminate|]. split; auto. split.
        + intros i v Hi. rewrite nth_error_map in Hi. destruct (nth_error ds i) as [d|] eqn:Ed; cbn in Hi; try discriminate. injection Hi as <-.
          rewrite Forall_forall in R1. apply R1. eapply nth_error_In; eauto.
        + intros l sM sE A L R. destruct (alloc_refs (length bnd) sE) as [rs sE1] eqn:Al. specialize (D1 l sM sE A L R). rewrite Al in D1. exact D1.
      - exists [], (with_vars (vars s ++ repeat None (length bnd)) s). rewrite let_vars_false. split; auto. split; [apply extv_with_vars|].
        cbv zeta. split; auto. split; [rewrite repeat_length; auto|]. split; [discriminate|]. split; [auto|]. split.
        + intros v. rewrite cnt_with_vars. clear. induction (length bnd); cbn; lia.
        + split.
          * intros i v Hi. exfalso. clear - Hi. revert i Hi. induction (length bnd); intros [|i] Hi; cbn in *; try discriminate. eauto.
          * intros l sM sE A L R. exists l, sM. split; [apply steps_refl|]. split; [apply vrels_none|]. split; auto. apply pres_refl. }
    destruct LV as [ds [s1 [E1 [X1 LV]]]]. set (olds := if r then map loc ds else repeat None (length bnd)) in *. cbv zeta in LV.
    destruct LV as [V1 [Lo [Ld [Ld0 [C1 [Ro D1]]]]]]. rewrite E1.
    assert (Iv1 : inv s1).
    { destruct Iv as [I1 [I2 I3]]. split; [apply (e_base _ _ X1); exact I1|]. split.
      - intros v. rewrite V1, occ_app, C1. specialize (I2 v). lia.
      - intros i v Hi. rewrite V1 in Hi. destruct (Nat.lt_ge_cases i (length (vars s))).
        + rewrite nth_error_app1 in Hi by auto. eapply inrange_extv; [exact X1|]. eapply I3; eauto.
        + rewrite nth_error_app2 in Hi by auto. eapply Ro; eauto. }
    assert (Ev1 : envok (bs ++ repeat r (length bnd)) s1).
    { eapply envok_app; [exact Ev|exact V1|rewrite Lo, repeat_length; auto|].
      intros i Hi. apply nth_repeat_true in Hi. destruct Hi as [Hi ->]. unfold olds. specialize (Ld eq_refl).
      destruct (nth_error_map_some Local ds i ltac:(lia)) as [x Hx]. exists (Local x). exact Hx. }
    rewrite (let_defs_block (compile k) bnd s1).
    destruct (compile_list_spec (in_block (compile k)) bnd) with (bs := bs ++ repeat r (length bnd)) (s := s1) as [defs [s2 [E2 [X2 [C2 [R2 [L2 D2]]]]]]]; auto.
    { eapply Forall_impl; [|exact Fb]. intros e He. apply in_block_spec. auto. }
    { pose proof (e_srefs _ _ X1) as Q1. pose proof (e_arefs _ _ X1) as Q2. cbn in Q1, Q2. rewrite Q1, Q2. auto. }
    rewrite E2.
    assert (V2 : vars s2 = vars s ++ olds) by (rewrite (e_vars _ _ X2); auto).
    (* definitions *)
    assert (LS : exists s3, let_sets ds (length (vars s)) defs s2 = Some s3 /\ vars s3 = vars s ++ map Some defs /\ extv s2 s3 /\
       (forall w, cnt s3 w + occ w olds = cnt s2 w) /\ length (slots s3) = length (slots s2) /\
       forall l sM sE rs xs ys, agree s2 s3 -> vrels l olds (if r then map Some rs else repeat None (length bnd)) -> (r = false -> rs = []) ->
         gets l defs = Some ys -> Forall2 vrel ys xs -> srel sM sE ->
        match assign_refs rs xs sE with
        | (Some (Some sE'), _) => exists sM', steps (length (bare s2)) l sM (length (bare s3)) l sM' /\ srel sM' sE'
        | (Some None, sE') => exists sM', stops (length (bare s2)) l sM Abort sM' /\ srel sM' sE'
        | (None, sE') => exists sM', stops (length (bare s2)) l sM Crash sM' /\ srel sM' sE'
        end).
    { unfold olds in *. destruct r.
      - destruct (let_sets_true defs ds (vars s) s2) as [s3 [E3 [V3 [X3 [C3 [L3 D3]]]]]]; auto.
        + rewrite Ld; auto.
        + intros w. rewrite C2, C1. lia.
        + exists s3. split; auto. split; auto. split; auto. split; auto. split; auto. intros. eapply D3; eauto.
      - rewrite (Ld0 eq_refl). rewrite <- L2 in V2. destruct (let_sets_false defs (vars s) s2 V2) as [s3 [E3 [V3 [X3 [C3 [I3 L3]]]]]].
        exists s3. split; auto. split; auto. split; auto. split.
        { intros w. rewrite C3. clear. induction (length bnd); cbn; lia. }
        split; auto. intros l sM sE rs xs ys A V Hrs G F R. rewrite Hrs by auto. cbn [assign_refs]. exists sM. split; auto.
        unfold bare. rewrite I3. apply steps_refl. }
    destruct LS as [s3 [E3 [V3 [X3 [C3 [L3 D3]]]]]]. rewrite E3.
    assert (C03 : forall w, cnt s3 w = cnt s w + occ w (map Some defs)).
    { intros w. specialize (C3 w). rewrite C2, C1 in C3. lia. }
    assert (X03 : extv s s3) by (eapply extv_trans; [exact X1|]; eapply extv_trans; [apply ext_extv; exact X2|exact X3]).
    assert (Rd : Forall (inrange s3) defs).
    { eapply Forall_impl; [|exact R2]. intros w Hw. eapply inrange_extv; [exact X3|exact Hw]. }
    assert (Iv3 : inv s3).
    { destruct Iv as [I1 [I2 I3]]. split; [apply (e_base _ _ X03); exact I1|]. split.
      - intros v. rewrite V3, occ_app, C03. specialize (I2 v). lia.
      - intros i v Hi. rewrite V3 in Hi. destruct (Nat.lt_ge_cases i (length (vars s))).
        + rewrite nth_error_app1 in Hi by auto. eapply inrange_extv; [exact X03|]. eapply I3; eauto.
        + rewrite nth_error_app2 in Hi by auto. rewrite nth_error_map in Hi. destruct (nth_error defs (i - length (vars s))) as [w|] eqn:Ew; cbn in Hi; try discriminate.
          injection Hi as ->. rewrite Forall_forall in Rd. apply Rd. eapply nth_error_In; eauto. }
    assert (Ev3 : envok (bs ++ repeat true (length bnd)) s3).
    { eapply envok_app; [exact Ev|exact V3|rewrite map_length, repeat_length; auto|].
      intros i Hi. apply nth_repeat_true in Hi. destruct Hi as [Hi _].
      destruct (nth_error_map_some (fun x => x) defs i ltac:(lia)) as [x Hx]. exists x. exact Hx. }
    destruct (Sb (bs ++ repeat true (length bnd)) s3) as [rr [s4 [E4 [N4 [S4 D4]]]]]; auto.
    { pose proof (e_srefs _ _ X03) as Q1. pose proof (e_arefs _ _ X03) as Q2. cbn in Q1, Q2. rewrite Q1, Q2. auto. }
    rewrite E4. pose proof (x_ext _ _ _ S4) as X4.
    destruct (pop_vars_spec defs (vars s) s4) as [s5 [E5 [V5 [X5 [C5 [I5 L5]]]]]].
    { rewrite (e_vars _ _ X4). auto. }
    { intros w. rewrite (x_cnt _ _ _ S4), C03. lia. }
    rewrite <- L2, E5. exists rr, s5. split; auto. split; auto. 
    assert (X35 : extv s3 s5) by (eapply extv_trans; [apply ext_extv; exact X4|exact X5]).
    split.
    - constructor.
      + apply extv_ext; auto. eapply extv_trans; [exact X03|exact X35].
      + intros v. specialize (C5 v). rewrite (x_cnt _ _ _ S4), C03 in C5. lia.
      + intros v Hv. eapply inrange_extv; [exact X5|]. apply (x_range _ _ _ S4). auto.
    - intros l env sM sE Sd A L Vr R. cbn [CompileEval.ev].
      assert (P25 : pref s2 s5) by (eapply pref_trans; [apply pref_extv; exact X3|apply pref_extv; exact X35]).
      assert (P15 : pref s1 s5) by (eapply pref_trans; [apply pref_ext; exact X2|exact P25]).
      assert (P01 : pref s s1) by (apply pref_extv; auto).
      assert (P02 : pref s s2) by (eapply pref_trans; [exact P01|apply pref_ext; exact X2]).
      assert (P03 : pref s s3) by (apply pref_extv; auto).
      assert (A1 : agree s s1) by (eapply agree_sub; [exact A|apply pref_refl|auto]).
      assert (A2 : agree s1 s2) by (eapply agree_sub; [exact A|auto|auto]).
      assert (A3 : agree s2 s3) by (eapply agree_sub; [exact A|auto|apply pref_extv; exact X35]).
      assert (A4 : agree s3 s4) by (eapply agree_sub; [exact A|auto|apply pref_extv; exact X5]).
      assert (Lb : length (bare s5) = length (bare s4)) by (unfold bare; rewrite I5; reflexivity).
      pose proof (e_slots _ _ X2) as Ls2. pose proof (e_slots _ _ X4) as Ls4.
      specialize (D1 l sM sE A1 ltac:(lia) R).
      destruct (if r then alloc_refs (length bnd) sE else ([], sE)) as [rs sE1] eqn:Al.
      destruct D1 as [l1 [sM1 [T1 [Vo [R1 Pr1]]]]]. pose proof (proj1 Pr1) as PL1.
      assert (M1 : mono s s1) by (intros v; rewrite C1; lia).
      assert (M2 : mono s1 s2) by (intros v; rewrite C2; lia).
      assert (V01 : vrels l1 (vars s) env) by (eapply pres_vrels; [exact Pr1|apply Iv|exact Vr]).
      assert (Vl1 : vrels l1 (vars s1) (env ++ (if r then map Some rs else repeat None (length bnd)))).
      { rewrite V1. apply Forall2_app; auto. }
      specialize (D2 l1 _ sM1 sE1 (sides_extv _ _ X1 Sd) A2 ltac:(lia) Vl1 R1). unfold goodL in D2.
      destruct (ev_list _ bnd sE1) as [xs sE2|o sE2].
      + destruct D2 as [l2 [sM2 [ys [T2 [G2 [Fv [R2' Pr2]]]]]]]. pose proof (proj1 Pr2) as PL2.
        assert (Vl2 : vrels l2 (vars s1) (env ++ (if r then map Some rs else repeat None (length bnd)))).
        { eapply pres_vrels; [exact Pr2|apply Iv1|exact Vl1]. }
        rewrite V1 in Vl2. pose proof (F2_len _ _ _ V01) as Lenv.
        assert (Vsplit : vrels l2 (vars s) env /\ vrels l2 olds (if r then map Some rs else repeat None (length bnd))).
        { apply Forall2_app_inv_l in Vl2. destruct Vl2 as [e1 [e2 [F1 [F2 Eq]]]].
          pose proof (F2_len _ _ _ F1) as Le1. assert (e1 = env /\ e2 = (if r then map Some rs else repeat None (length bnd))) as [-> ->].
          { rewrite Lenv in Le1. clear - Le1 Eq. revert e1 Le1 Eq. induction env as [|x env IH]; intros [|y e1] L Eq; cbn in *; try discriminate; auto.
            injection Eq as <- Eq. injection L as L. destruct (IH _ L Eq) as [-> ->]. auto. }
          auto. }
        destruct Vsplit as [Ve2 Vo2].
        assert (Hrs : r = false -> rs = []) by (intros ->; injection Al as <- <-; auto).
        specialize (D3 l2 sM2 sE2 rs xs ys A3 Vo2 Hrs G2 Fv R2').
        assert (T12 : steps (length (bare s)) l sM (length (bare s2)) l2 sM2) by (eapply steps_trans; eauto).
        assert (Pr12 : pres s l l2) by (eapply pres_trans; [exact M1|exact Pr1|exact Pr2]).
        assert (NA : noval Abort) by (split; discriminate). assert (NC : noval Crash) by (split; discriminate).
        destruct (assign_refs rs xs sE2) as [[[sE3|]|] sE3'].
        * destruct D3 as [sM3 [T3 R3]].
          assert (Vl3 : vrels l2 (vars s3) (env ++ map Some xs)).
          { rewrite V3. apply Forall2_app; auto. eapply gets_vrels; eauto. }
          specialize (D4 l2 _ sM3 sE3 (sides_extv _ _ X03 Sd) A4 ltac:(lia) Vl3 R3). rewrite Lb.
          eapply (good_steps exit s s3); [intros v; rewrite C03; lia| |exact Pr12|exact D4]. eapply steps_trans; eauto.
        * destruct D3 as [sM3 [T3 R3]]. eapply good_fail; [exact NA| |constructor|exact R3]. eapply steps_stops; eauto.
        * destruct D3 as [sM3 [T3 R3]]. eapply good_fail; [exact NC| |constructor|exact R3]. eapply steps_stops; eauto.
      + destruct D2 as [N2 [o' [sM2 [T2 [O R2']]]]]. eapply good_fail; [exact N2| |exact O|exact R2']. eapply steps_stops; eauto.
  Qed.

  (** ** Select *)
  Lemma select_branch_spec : forall comp exit dest e, spec comp exit e ->
    forall s0 bs s, wf (length (srefs s)) (length (arefs s)) bs e = true -> envok bs s -> inv s -> mono s0 s ->
    (exit = false -> inrange s (Local dest) /\ 0 < cnt s (Local dest) /\ cnt s0 (Local dest) = 0) ->
    exists s', select_branch comp exit dest e s = Some (length (bare s), s') /\ ext s s' /\ (forall v, cnt s' v = cnt s v) /\
      forall l env sM sE, sides s -> agree s s' -> length (slots s') <= length l -> vrels l (vars s) env -> srel sM sE ->
        good exit s0 (length (bare s)) (length (bare s')) (Some (Local dest)) l sM (ev exit e env sE).
  Proof.
    intros comp exit dest e Sp s0 bs s W Ev Iv M0 Hd. unfold select_branch.
    rewrite <- (bare_length (new_basic_block s)).
    destruct (new_basic_block_spec s) as [N1 [N2 N3]]. rewrite N3. set (t := new_basic_block s) in *.
    destruct (enter_block_spec exit t) as [id [[A1 [A2 [A3 [A4 A5]]]] [B1 B2]]].
    destruct N1 as [M1 [M2 [M3 [M4 M5]]]].
    destruct (Sp bs (enter_block exit t)) as [r [s1 [E1 [Nr [S1 D1]]]]].
    { rewrite A1, A2, M1, M2. auto. }
    { unfold envok. rewrite A4, M4. auto. }
    { unfold inv, base, inrange, cnt. rewrite A1, A2, A3, A4, M1, M2, M3, M4. auto. }
    rewrite E1. pose proof (x_ext _ _ _ S1) as X1.
    destruct (ext_enter exit t s1 X1) as [C [_ [[id' Bs] Xf]]].
    (* the copy *)
    assert (Hcp : exists s2, (if exit then Some s1 else match r with Some v => Some (append_instr (ICopy v dest) s1) | None => None end) = Some s2 /\
       same_counts s1 s2 /\ bstack s2 = bstack s1 /\
       (if exit then bare s2 = bare s1 else exists v, r = Some v /\ bare s2 = bare s1 ++ [ICopy v dest])).
    { destruct exit.
      - exists s1. repeat split.
      - destruct (Nr eq_refl) as [v ->]. destruct (append_instr_spec (ICopy v dest) s1) as [Q1 [Q2 [Q3 Q4]]].
        exists (append_instr (ICopy v dest) s1). split; auto. split; auto. split; auto. exists v. auto. }
    destruct Hcp as [s2 [E2 [Sc2 [Bs2 Bc2]]]]. rewrite E2.
    rewrite <- Bs2 in Bs. destruct (exit_block_spec exit s2 id' (bstack t) Bs) as [s3 [E3 [Sc3 [Bs3 [Bc3 Ls3]]]]]. rewrite E3.
    pose proof (same_counts_trans _ _ _ Sc2 Sc3) as Sc13.
    assert (P12 : pref s1 s2).
    { destruct exit; [exists []; rewrite app_nil_r; auto|]. destruct Bc2 as [v [_ Bc2]]. exists [ICopy v dest]. auto. }
    assert (P13 : pref s1 s3) by (destruct P12 as [sg Hsg]; exists sg; rewrite Bc3; auto).
    assert (X3 : ext s s3).
    { assert (Xs : ext t s3).
      { pose proof (Xf (with_code (instrs s1) (pending s3) (active s3) s3)) as Q.
        assert (Q' : ext t (with_code (instrs s1) (pending s3) (active s3) s3)).
        { apply Q; [exact Sc13|exact Bs3|reflexivity]. }
        clear Q. destruct Q'. constructor; auto. destruct e_code as [sg Hsg]. destruct P13 as [sg' Hsg'].
        exists (sg ++ sg'). rewrite Hsg'. change (bare (with_code (instrs s1) (pending s3) (active s3) s3)) with (bare s1) in Hsg. rewrite Hsg, app_assoc. reflexivity. }
      eapply ext_trans; [exact N2|exact Xs]. }
    assert (C3 : forall v, cnt s3 v = cnt s v + occ v [r]).
    { intros v. rewrite (same_counts_cnt _ _ _ Sc13), (x_cnt _ _ _ S1), C. unfold cnt. rewrite M1, M2, M3. reflexivity. }
    assert (E4 : exists s4, release r s3 = Some s4 /\ ext s3 s4 /\ (forall v, cnt s4 v = cnt s v) /\ instrs s4 = instrs s3 /\ length (slots s4) = length (slots s3)).
    { destruct r as [v|].
      - destruct (release_spec s3 v) as [s4 [E4 [X4 [C4 [I4 L4]]]]]; [rewrite C3, one_occ, one_same; lia|].
        exists s4. split; auto. split; auto. split; auto. intros w. specialize (C4 w). rewrite C3, one_occ in C4. lia.
      - exists s3. split; auto. split; [apply ext_refl|]. split; auto. intros v. rewrite C3. cbn. lia. }
    destruct E4 as [s4 [E4 [X4 [C4 [I4 L4]]]]]. rewrite E4. exists s4. split; auto. split; [eapply ext_trans; eauto|]. split; auto.
    intros l env sM sE Sd A L V R.
    assert (Bc4 : bare s4 = bare s2) by (rewrite <- Bc3; unfold bare; rewrite I4; reflexivity).
    assert (P14 : pref s1 s4) by (destruct P12 as [sg Hsg]; exists sg; rewrite Bc4; auto).
    assert (Ls1 : length (slots s1) = length (slots s4)).
    { rewrite L4, Ls3. destruct Sc2 as [_ [_ [Sl _]]]. rewrite Sl. reflexivity. }
    specialize (D1 l env sM sE). rewrite B2 in D1. rewrite N3 in D1.
    assert (D1' : sides (enter_block exit t) /\ agree (enter_block exit t) s1 /\ length (slots s1) <= length l /\ vrels l (vars (enter_block exit t)) env).
    { split; [unfold sides; rewrite A1, A2, M1, M2; auto|]. split.
      - intros pc Lp. rewrite B2, N3 in Lp. rewrite A.
        + apply pref_nth; auto. lia.
        + pose proof (pref_len _ _ P14). lia.
      - split; [lia|]. rewrite A4, M4. auto. }
    destruct D1' as [T1 [T2 [T3 T4]]]. specialize (D1 T1 T2 T3 T4 R).
    destruct exit.
    - unfold good in *. exact D1.
    - apply good_sub in D1. destruct Bc2 as [v [-> Bc2]].
      destruct D1 as [[x [sE1 [w [l1 [sM1 [y [Q [Hv [T [G [Vy [R1 P1]]]]]]]]]]]] | [o [sE1 [o' [sM1 [Q [Nv [T [O R1]]]]]]]]].
      + rewrite Q. injection Hv as <-. destruct (Hd eq_refl) as [Hd1 [Hd2 Hd3]].
        assert (Bc4' : bare s4 = bare s1 ++ [ICopy v dest]) by congruence.
        destruct (agree_at s s4 (length (bare s1)) (ICopy v dest) A) as [ops Hops].
        { pose proof (pref_len _ _ (pref_ext _ _ X1)) as Lp. rewrite B2, N3 in Lp. lia. }
        { rewrite Bc4', nth_error_app2, Nat.sub_diag by lia. reflexivity. }
        assert (Dl : dest < length l1).
        { rewrite (proj1 P1). assert (Rd : inrange s4 (Local dest)) by (eapply inrange_ext; [exact X4|]; eapply inrange_ext; [exact X3|exact Hd1]). cbn in Rd. lia. }
        unfold good. cbn [fst snd]. exists (Local dest), (set_nth dest (Some y) l1), (do_ops blk ops sM1), y. split; auto. split.
        { eapply steps_trans; [exact T|]. rewrite Bc4', app_length, Nat.add_1_r. eapply steps_step; [exact Hops| |apply Nat.lt_succ_diag_r|apply steps_refl].
          cbn [CodeModel.exec]. rewrite G. unfold put. replace (dest <? length l1) with true by (symmetry; apply Nat.ltb_lt; auto). reflexivity. }
        split.
        { cbn. rewrite nth_error_set_nth, Nat.eqb_refl. replace (dest <? length l1) with true by (symmetry; apply Nat.ltb_lt; auto). reflexivity. }
        split; auto. split; [apply do_ops_srel; auto|].
        eapply (pres_trans s0 s0); [intros u; lia| |apply pres_put; exact Hd3].
        eapply pres_mono; [|exact P1]. intros u. rewrite C. specialize (M0 u). unfold cnt in *. rewrite M1, M2, M3. exact M0.
      + rewrite Q. eapply good_fail; [exact Nv|exact T|exact O|exact R1].
  Qed.

  Definition agree_gotos (s s' : cs) (gotos : list nat) (endpc : nat) : Prop :=
    (forall p, In p gotos -> nth_error (map snd I) p = Some (IGoto endpc)) /\
    (forall p, length (bare s) <= p < length (bare s') -> ~ In p gotos -> nth_error (map snd I) p = nth_error (bare s') p).

  Lemma find_target_some : forall {A} tag (ts : list (nat * A)) e, find_target tag ts = Some e -> In (tag, e) ts.
  Proof.
    intros A tag ts. induction ts as [|[t x] ts IH]; intros e H; cbn in *; try discriminate.
    destruct (t =? tag) eqn:E; auto. apply Nat.eqb_eq in E. injection H as ->. subst. auto.
  Qed.
  Lemma find_target_none : forall {A} tag (ts : list (nat * A)), find_target tag ts = None -> ~ In tag (map fst ts).
  Proof.
    intros A tag ts. induction ts as [|[t x] ts IH]; intros H; cbn in *; auto.
    destruct (t =? tag) eqn:E; try discriminate. apply Nat.eqb_neq in E. intros [Hc|Hc]; auto. apply IH; auto.
  Qed.

  Lemma select_branches_spec : forall comp exit dest ts, Forall (fun p => spec comp exit (snd p)) ts ->
    forall s0 bs s, forallb (fun p => wf (length (srefs s)) (length (arefs s)) bs (snd p)) ts = true -> envok bs s -> inv s -> mono s0 s ->
    (exit = false -> inrange s (Local dest) /\ 0 < cnt s (Local dest) /\ cnt s0 (Local dest) = 0) ->
    exists tgts gotos s', select_branches comp exit dest ts s = Some (tgts, gotos, s') /\ ext s s' /\ (forall v, cnt s' v = cnt s v) /\
      map fst tgts = map fst ts /\ (exit = true -> gotos = []) /\ (forall g, In g gotos -> length (bare s) <= g < length (bare s')) /\
      forall tag e, find_target tag ts = Some e -> exists pc, find_target tag tgts = Some pc /\ length (bare s) <= pc /\
        forall endpc l env sM sE, length (bare s') <= endpc -> agree_gotos s s' gotos endpc -> sides s -> length (slots s') <= length l ->
          vrels l (vars s) env -> srel sM sE ->
          good exit s0 pc endpc (Some (Local dest)) l sM (ev exit e env sE).
  Proof.
    intros comp exit dest ts F. induction F as [|[tag0 e0] ts H F IH]; intros s0 bs s W Ev Iv M0 Hd.
    - exists [], [], s. cbn [select_branches map]. split; auto. split; [apply ext_refl|]. split; auto. split; auto. split; auto. split; [intros g []|].
      intros tag e Hf. discriminate.
    - cbn [forallb snd] in W. apply andb_true_iff in W. destruct W as [W1 W2]. cbn [snd] in H.
      destruct (select_branch_spec comp exit dest e0 H s0 bs s W1 Ev Iv M0 Hd) as [s1 [E1 [X1 [C1 D1]]]].
      cbn [select_branches]. rewrite E1.
      assert (G2 : exists s2, (if exit then s1 else append_instr (IGoto 0) s1) = s2 /\ ext s1 s2 /\ (forall v, cnt s2 v = cnt s1 v) /\
         bare s2 = bare s1 ++ (if exit then [] else [IGoto 0])).
      { destruct exit.
        - exists s1. split; auto. split; [apply ext_refl|]. split; auto. rewrite app_nil_r. reflexivity.
        - exists (append_instr (IGoto 0) s1). split; auto. split; [apply append_instr_ext|]. split; [intros; apply append_instr_cnt|]. apply append_instr_spec. }
      destruct G2 as [s2 [-> [X2 [C2 B2]]]].
      pose proof (ext_trans _ _ _ X1 X2) as X02.
      assert (M2 : forall v, cnt s2 v = cnt s v) by (intros v; rewrite C2; auto).
      destruct (IH s0 bs s2) as [tgts [gotos [s3 [E3 [X3 [C3 [Mf [Ge [Gr D3]]]]]]]]].
      { rewrite (e_srefs _ _ X02), (e_arefs _ _ X02). auto. }
      { eapply envok_ext; eauto. }
      { eapply inv_ext; [exact X02| |exact Iv]. intros v. rewrite M2. lia. }
      { intros v. rewrite M2. apply M0. }
      { intros He. destruct (Hd He) as [Q1 [Q2 Q3]]. split; [eapply inrange_ext; eauto|]. split; auto. rewrite M2. auto. }
      rewrite E3. exists ((tag0, length (bare s)) :: tgts), (if exit then gotos else length (instrs s1) :: gotos), s3.
      rewrite <- bare_length. pose proof (pref_len _ _ (pref_ext _ _ X1)) as Lp1. pose proof (pref_len _ _ (pref_ext _ _ X2)) as Lp2. pose proof (pref_len _ _ (pref_ext _ _ X3)) as Lp3.
      pose proof (e_slots _ _ X1) as Sl1. pose proof (e_slots _ _ X2) as Sl2. pose proof (e_slots _ _ X3) as Sl3.
      split; auto. split; [eapply ext_trans; eauto|]. split; [intros v; rewrite C3; auto|]. split; [cbn [map fst]; congruence|].
      split; [intros ->; auto|]. split.
      { intros g Hg. destruct exit.
        - specialize (Gr g Hg). lia.
        - destruct Hg as [<-|Hg]; [rewrite B2, app_length in Lp3; cbn in Lp3; lia|]. specialize (Gr g Hg). lia. }
      intros tag e Hf. cbn [find_target] in Hf |- *. destruct (tag0 =? tag) eqn:Et.
      + injection Hf as <-. exists (length (bare s)). split; auto. split; auto.
        intros endpc l env sM sE Le [Ag1 Ag2] Sd L V R.
        assert (A1 : agree s s1).
        { intros p Lp. rewrite Ag2.
          - apply pref_nth; [|lia]. eapply pref_trans; apply pref_ext; eauto.
          - lia.
          - intros Hin. destruct exit.
            + specialize (Gr p Hin). lia.
            + destruct Hin as [<-|Hin]; [lia|]. specialize (Gr p Hin). lia. }
        specialize (D1 l env sM sE Sd A1 ltac:(lia) V R).
        destruct exit; [exact D1|]. apply good_sub in D1.
        destruct D1 as [[x [sE1 [w [l1 [sM1 [y [Q [Hv [T [G [Vy [R1 P1]]]]]]]]]]]] | [o [sE1 [o' [sM1 [Q [Nv [T [O R1]]]]]]]]].
        * rewrite Q. injection Hv as <-. unfold good. cbn [fst snd].
          specialize (Ag1 (length (bare s1)) (or_introl eq_refl)).
          rewrite nth_error_map in Ag1. destruct (nth_error I (length (bare s1))) as [[ops j]|] eqn:En; cbn in Ag1; try discriminate. injection Ag1 as ->.
          exists (Local dest), l1, (do_ops blk ops sM1), y. split; auto. split.
          { eapply steps_trans; [exact T|]. eapply steps_step; [exact En|cbn [CodeModel.exec]; reflexivity| |apply steps_refl].
            rewrite B2, app_length in Lp3. cbn in Lp3. lia. }
          split; auto. split; auto. split; [apply do_ops_srel; auto|auto].
        * rewrite Q. eapply good_fail; [exact Nv|exact T|exact O|exact R1].
      + destruct (D3 tag e Hf) as [pc [Hpc [Lpc D4]]]. exists pc. split; auto. split; [lia|].
        intros endpc l env sM sE Le [Ag1 Ag2] Sd L V R. apply D4; auto.
        * split.
          { intros p Hp. apply Ag1. destruct exit; [auto|right; auto]. }
          { intros p Lp Np. apply Ag2; [lia|]. destruct exit; auto. intros [<-|Hin]; auto.
            rewrite B2, app_length in Lp. cbn in Lp. lia. }
        * eapply sides_ext; eauto.
        * rewrite (e_vars _ _ X02). auto.
  Qed.

  Lemma sorted_from_targets : forall (tgts : list (nat * nat)) lo, sorted_from lo (map fst tgts) = true ->
    sorted_targets tgts /\ forall i t, nth_error tgts i = Some t -> lo <= fst t.
  Proof.
    induction tgts as [|[a b] tgts IH]; intros lo H; cbn in H.
    - split; [intros i j ti tj _ Hi; destruct i; discriminate|intros i t Hi; destruct i; discriminate].
    - apply andb_true_iff in H. destruct H as [H1 H2]. apply Nat.leb_le in H1. destruct (IH _ H2) as [I1 I2].
      split.
      + intros [|i] [|j] ti tj L Hi Hj; cbn in Hi, Hj; try lia.
        * injection Hi as <-. cbn. specialize (I2 _ _ Hj). lia.
        * apply (I1 i j ti tj); auto. lia.
      + intros [|i] t Hi; cbn in Hi; [injection Hi as <-; cbn; lia|]. specialize (I2 _ _ Hi). lia.
  Qed.

  Lemma patch_gotos : forall gotos s s0, ext s0 s -> (forall g, In g gotos -> length (bare s0) <= g < length (bare s)) ->
    let s' := fold_left (fun s pc => patch pc (IGoto (length (instrs s))) s) gotos s in
    ext s0 s' /\ same_counts s s' /\ length (bare s') = length (bare s) /\
    (forall p, ~ In p gotos -> nth_error (bare s') p = nth_error (bare s) p) /\
    (forall p, In p gotos -> nth_error (bare s') p = Some (IGoto (length (bare s)))).
  Proof.
    induction gotos as [|g gotos IH]; intros s s0 X Hg; cbn [fold_left].
    - cbv zeta. split; auto. split; [repeat split|]. split; auto. split; auto. intros p [].
    - set (s1 := patch g (IGoto (length (instrs s))) s).
      destruct (patch_counts g (IGoto (length (instrs s))) s) as [Sc [Bs [Bn Lb]]]. fold s1 in Sc, Bs, Bn, Lb.
      assert (X1 : ext s0 s1) by (apply patch_ext; auto; apply Hg; left; auto).
      destruct (IH s1 s0 X1) as [Y1 [Y2 [Y3 [Y4 Y5]]]].
      { intros p Hp. rewrite Lb. apply Hg. right. auto. }
      cbv zeta. split; auto. split; [eapply same_counts_trans; eauto|]. split; [congruence|].
      assert (Hn : forall p, nth_error (bare s1) p = if p =? g then Some (IGoto (length (bare s))) else nth_error (bare s) p).
      { intros p. unfold s1. rewrite bare_patch. assert (Lg : g < length (bare s)) by (apply Hg; left; auto).
        replace (g <? length (bare s)) with true by (symmetry; apply Nat.ltb_lt; auto).
        rewrite nth_error_set_nth. replace (g <? length (bare s)) with true by (symmetry; apply Nat.ltb_lt; auto).
        rewrite andb_true_r, <- bare_length. reflexivity. }
      split.
      + intros p Hp. rewrite Y4 by (intros Hc; apply Hp; right; auto). rewrite Hn.
        destruct (p =? g) eqn:Ep; auto. apply Nat.eqb_eq in Ep. subst. exfalso. apply Hp. left. auto.
      + intros p Hp. destruct (in_dec Nat.eq_dec p gotos) as [Hi|Hi].
        * rewrite (Y5 p Hi). congruence.
        * rewrite Y4 by auto. rewrite Hn. destruct Hp as [->|Hp]; [|contradiction]. rewrite Nat.eqb_refl. reflexivity.
  Qed.

  Lemma ok_select : forall k exit c nt ts d, spec (compile k) false c -> Forall (fun p => spec (compile k) exit (snd p)) ts ->
    spec (compile k) exit d -> spec (compile (S k)) exit (TSelect c nt ts d).
  Proof.
    intros k exit c nt ts d Sc Ft Sd bs s W Ev Iv. cbn [wf] in W.
    apply andb_true_iff in W. destruct W as [W Wl]. apply andb_true_iff in W. destruct W as [W _]. apply andb_true_iff in W. destruct W as [W Ws].
    apply andb_true_iff in W. destruct W as [W Wd]. apply andb_true_iff in W. destruct W as [Wc Wt].
    cbn [compile]. destruct (Sc bs s Wc Ev Iv) as [r [s1 [E1 [N1 [S1 D1]]]]]. destruct N1 as [cv ->]; auto. rewrite E1.
    pose proof (x_ext _ _ _ S1) as X1. destruct (spec_inv _ _ _ S1 Iv) as [Iv1 [M1 P1]].
    set (s2 := append_instr (ISelect cv nt [] 0) s1).
    pose proof (append_instr_ext (ISelect cv nt [] 0) s1) as X2. fold s2 in X2.
    assert (C2 : forall v, cnt s2 v = cnt s1 v) by (intros v; apply append_instr_cnt).
    assert (B2 : bare s2 = bare s1 ++ [ISelect cv nt [] 0]) by apply append_instr_spec.
    set (dst := if exit then (0, s2) else new_local s2).
    assert (Hd : exists dest s3, dst = (dest, s3) /\ ext s2 s3 /\ (forall v, cnt s3 v = cnt s2 v + if exit then 0 else one (Local dest) v) /\
        (exit = false -> inrange s3 (Local dest) /\ 0 < cnt s3 (Local dest) /\ cnt s2 (Local dest) = 0) /\ instrs s3 = instrs s2).
    { unfold dst. destruct exit.
      - exists 0, s2. split; auto. split; [apply ext_refl|]. split; [intros; lia|]. split; [discriminate|auto].
      - destruct (new_local s2) as [dd s3] eqn:N. destruct (new_local_spec _ _ _ N) as [C0 [E [C [R J]]]]. exists dd, s3.
        split; auto. split; auto. split; auto. split; auto. intros _. split; auto. split; auto. rewrite C, one_same. lia. }
    destruct Hd as [dest [s3 [-> [X3 [C3 [R3 I3]]]]]].
    assert (X03 : ext s s3) by (eapply ext_trans; [exact X1|]; eapply ext_trans; [exact X2|exact X3]).
    assert (M3 : mono s1 s3) by (intros v; rewrite C3, C2; lia).
    assert (Iv3 : inv s3) by (eapply inv_ext; [eapply ext_trans; [exact X2|exact X3]|exact M3|exact Iv1]).
    destruct (select_branches_spec (compile k) exit dest ts Ft s1 bs s3) as [tgts [gotos [s4 [E4 [X4 [C4 [Mf [Ge [Gr D4]]]]]]]]]; auto.
    { rewrite (e_srefs _ _ X03), (e_arefs _ _ X03). auto. }
    { eapply envok_ext; eauto. }
    { intros He. destruct (R3 He) as [Q1 [Q2 Q3]]. split; auto. split; auto. rewrite <- C2. auto. }
    rewrite E4.
    assert (X04 : ext s s4) by (eapply ext_trans; eauto).
    destruct (select_branch_spec (compile k) exit dest d Sd s1 bs s4) as [s5 [E5 [X5 [C5 D5]]]].
    { rewrite (e_srefs _ _ X04), (e_arefs _ _ X04). auto. }
    { eapply envok_ext; eauto. }
    { eapply inv_ext; [exact X4| |exact Iv3]. intros v. rewrite C4. lia. }
    { intros v. rewrite C4. apply M3. }
    { intros He. destruct (R3 He) as [Q1 [Q2 Q3]]. split; [eapply inrange_ext; [exact X4|exact Q1]|]. split; [rewrite C4; auto|]. rewrite <- C2. auto. }
    rewrite E5.
    assert (G6 : exists s6, (if exit then s5 else append_instr INop s5) = s6 /\ ext s5 s6 /\ (forall v, cnt s6 v = cnt s5 v) /\
       bare s6 = bare s5 ++ (if exit then [] else [INop])).
    { destruct exit.
      - exists s5. split; auto. split; [apply ext_refl|]. split; auto. rewrite app_nil_r. reflexivity.
      - exists (append_instr INop s5). split; auto. split; [apply append_instr_ext|]. split; [intros; apply append_instr_cnt|]. apply append_instr_spec. }
    destruct G6 as [s6 [-> [X6 [C6 B6]]]].
    destruct (new_basic_block_spec s6) as [N7 [X7 B7]]. set (s7 := new_basic_block s6) in *.
    set (spc := length (instrs s1)).
    set (s8 := patch spc (ISelect cv nt tgts (length (bare s4))) s7).
    assert (Espc : spc = length (bare s1)) by (unfold spc; rewrite bare_length; reflexivity).
    assert (Bb3 : bare s3 = bare s2) by (unfold bare; rewrite I3; reflexivity).
    pose proof (pref_len _ _ P1) as Lp1. pose proof (pref_len _ _ (pref_ext _ _ X4)) as Lp4.
    pose proof (pref_len _ _ (pref_ext _ _ X5)) as Lp5. pose proof (pref_len _ _ (pref_ext _ _ X6)) as Lp6.
    assert (L3 : length (bare s3) = S spc) by (rewrite Bb3, B2, app_length; cbn; lia).
    assert (X17 : ext s1 s7).
    { eapply ext_trans; [exact X2|]. eapply ext_trans; [exact X3|]. eapply ext_trans; [exact X4|]. eapply ext_trans; [exact X5|]. eapply ext_trans; [exact X6|exact X7]. }
    assert (X18 : ext s1 s8) by (apply patch_ext; auto; lia).
    destruct (patch_counts spc (ISelect cv nt tgts (length (bare s4))) s7) as [Sc8 [_ [_ L8]]]. fold s8 in Sc8, L8.
    destruct (patch_gotos gotos s8 s1 X18) as [X19 [Sc9 [L9 [N9 G9]]]].
    { intros g Hg. specialize (Gr g Hg). rewrite L8, B7. lia. }
    cbv zeta.
    set (s9 := fold_left _ gotos s8) in *.
    assert (C9 : forall v, cnt s9 v = cnt s3 v).
    { intros v. rewrite (same_counts_cnt _ _ _ Sc9), (same_counts_cnt _ _ _ Sc8), (same_counts_cnt _ _ _ N7), C6, C5, C4. reflexivity. }
    destruct (release_spec s9 cv) as [s10 [E10 [X10 [C10 [I10 L10]]]]].
    { rewrite C9, C3, C2, (x_cnt _ _ _ S1), one_occ, one_same. lia. }
    rewrite E10. eexists. eexists. split; [reflexivity|]. split; [intros ->; eauto|].
    assert (Slc : length (slots s10) = length (slots s6)).
    { rewrite L10. destruct Sc9 as [_ [_ [Q _]]]. rewrite Q. destruct Sc8 as [_ [_ [Q' _]]]. rewrite Q'. reflexivity. }
    pose proof (e_slots _ _ X2) as Sl2. pose proof (e_slots _ _ X3) as Sl3. pose proof (e_slots _ _ X4) as Sl4. pose proof (e_slots _ _ X5) as Sl5. pose proof (e_slots _ _ X6) as Sl6.
    split.
    - constructor.
      + eapply ext_trans; [exact X1|]. eapply ext_trans; [exact X19|exact X10].
      + intros v. specialize (C10 v). rewrite C9, C3, C2, (x_cnt _ _ _ S1), one_occ in C10. destruct exit; cbn [occ] in *; unfold one in *; lia.
      + intros v Hv. destruct exit; try discriminate. injection Hv as <-. destruct (R3 eq_refl) as [Q1 _]. cbn in Q1 |- *. lia.
    - intros l env sM sE Sd' A L Vr R. cbn [CompileEval.ev].
      assert (Bb10 : bare s10 = bare s9) by (unfold bare; rewrite I10; reflexivity).
      assert (P19 : pref s1 s10) by (eapply pref_trans; [apply pref_ext; exact X19|apply pref_instrs; auto]).
      assert (A1 : agree s s1) by (eapply agree_sub; [exact A|apply pref_refl|exact P19]).
      assert (Len : length (bare s10) = length (bare s6)) by (rewrite Bb10, L9, L8, B7; reflexivity).
      (* the instructions after s1 *)
      assert (At : forall p, spc <= p < length (bare s6) -> nth_error (map snd I) p =
          if in_dec Nat.eq_dec p gotos then Some (IGoto (length (bare s6)))
          else if p =? spc then Some (ISelect cv nt tgts (length (bare s4))) else nth_error (bare s6) p).
      { intros p Hp. rewrite A by lia. rewrite Bb10. destruct (in_dec Nat.eq_dec p gotos) as [Hi|Hi].
        - rewrite (G9 p Hi). f_equal. f_equal. rewrite L8, B7. reflexivity.
        - rewrite (N9 p Hi). unfold s8. rewrite bare_patch. rewrite B7. replace (spc <? length (bare s6)) with true by (symmetry; apply Nat.ltb_lt; lia).
          rewrite nth_error_set_nth. replace (spc <? length (bare s6)) with true by (symmetry; apply Nat.ltb_lt; lia). rewrite andb_true_r. reflexivity. }
      pose proof (D1 l env sM sE Sd' A1 ltac:(lia) Vr R) as G1. apply good_sub in G1.
      destruct G1 as [[x [sE1 [w [l1 [sM1 [y [Q [Hv [T [G [Vy [R1 Pr1]]]]]]]]]]]] | [o [sE1 [o' [sM1 [Q [Nv [T [O R1]]]]]]]]].
      2: { rewrite Q. match goal with |- good ?ex ?a ?b ?c ?d ?e ?f _ => assert (Gf : good ex a b c d e f (o, sE1)) by (eapply good_fail; eauto) end.
           destruct Nv as [Na Nb]. destruct o; auto. destruct (Na v); auto. destruct (Nb f args); auto. }
      rewrite Q. injection Hv as <-. eapply good_steps; [exact M1|exact T|exact Pr1|]. pose proof (proj1 Pr1) as PL1.
      assert (Vr1 : vrels l1 (vars s1) env).
      { rewrite (e_vars _ _ X1). eapply pres_vrels; [exact Pr1|apply Iv|exact Vr]. }
      assert (Hops : exists ops, nth_error I (length (bare s1)) = Some (ops, ISelect cv nt tgts (length (bare s4)))).
      { specialize (At spc ltac:(lia)). destruct (in_dec Nat.eq_dec spc gotos) as [Hi|Hi]; [specialize (Gr _ Hi); lia|].
        rewrite Nat.eqb_refl in At. rewrite nth_error_map in At. rewrite <- Espc. destruct (nth_error I spc) as [[ops j]|]; cbn in At; try discriminate.
        injection At as ->. eauto. }
      destruct Hops as [ops Hops].
      pose proof (do_ops_srel blk ops _ _ R1) as R2. set (sM2 := do_ops blk ops sM1) in *.
      pose proof (strict_value_rel _ _ _ _ R2 Vy) as SR.
      assert (Ex : exec (ISelect cv nt tgts (length (bare s4))) (length (bare s1)) l1 sM2 =
        match strict_value (refs sM2) y with
        | SUndef => Stop Abort sM2
        | SVal (VUnion t _) => match select_target nt tgts (length (bare s4)) t with Some pc' => Next pc' l1 sM2 | None => Stop Crash sM2 end
        | _ => Stop Crash sM2
        end).
      { cbn [CodeModel.exec]. rewrite G. reflexivity. }
      assert (NA : noval Abort) by (split; discriminate). assert (NC : noval Crash) by (split; discriminate).
      set (rr := if exit then None else Some (Local dest)).
      assert (Fail : forall o o', outrel o o' -> noval o' -> exec (ISelect cv nt tgts (length (bare s4))) (length (bare s1)) l1 sM2 = Stop o sM2 ->
         good exit s1 (length (bare s1)) (length (bare s10)) rr l1 sM1 (o', sE1)).
      { intros o o' H1 H2 H3. eapply good_fail; [exact H2| |exact H1|exact R2]. eapply stops_stop; [exact Hops|exact H3]. }
      destruct (strict_value (refs sM2) y) as [y1| |] eqn:EM; inversion SR as [y1' x1 V1' NR Ea Eb|Ea Eb|Ea Eb]; try subst y1'.
      2: { apply (Fail Abort Abort); auto; constructor. }
      2: { apply (Fail Crash Crash); auto; constructor. }
      destruct V1' as [xs ys Hxy|tag xa ya Hxy|n cc b kk kk' xs ys Hc Hn Hl Hxy|n kk kk' f g xs ys Hf Hxy|rl|]; try (apply (Fail Crash Crash); auto; constructor; fail); try (destruct (NR rl); auto; fail).
      (* a union *)
      assert (Srt : sorted_targets tgts) by (apply (sorted_from_targets tgts 0); rewrite Mf; auto).
      assert (Tne : tgts <> []).
      { intros ->. destruct ts; [discriminate|]. cbn in Mf. discriminate. }
      cbv iota beta. destruct (tag <? nt) eqn:Etag.
      2: { apply (Fail Crash Crash); auto; [constructor|]. rewrite Ex. unfold select_target. rewrite Etag. destruct tgts; reflexivity. }
      destruct (select_target_correct nt tgts (length (bare s4)) tag Srt Tne (proj1 (Nat.ltb_lt _ _) Etag)) as [pc' [Ep [Hin Hnin]]]. rewrite Ep in Ex.
      assert (Br : (fix branch ts :=
             match ts with
             | [] => ev exit d env sE1
             | (t, e) :: r => if t =? tag then ev exit e env sE1 else branch r
             end) ts = match find_target tag ts with Some e => ev exit e env sE1 | None => ev exit d env sE1 end).
      { clear. induction ts as [|[t e] ts IH]; cbn; auto. destruct (t =? tag); auto. }
      rewrite Br. clear Br.
      assert (Res : forall q, good exit s1 pc' (length (bare s10)) (Some (Local dest)) l1 sM2 q -> spc < pc' -> good exit s1 (length (bare s1)) (length (bare s10)) rr l1 sM1 q).
      { intros q Gq Lq. eapply (good_steps exit s1 s1); [intros u; lia| |apply pres_refl|].
        - eapply steps_step; [exact Hops|exact Ex|lia|apply steps_refl].
        - unfold rr. destruct exit; [exact Gq|exact Gq]. }
      assert (Vr3 : vrels l1 (vars s3) env).
      { rewrite (e_vars _ _ X3), (e_vars _ _ X2). exact Vr1. }
      destruct (find_target tag ts) as [e|] eqn:Ft'.
      + destruct (D4 tag e Ft') as [pc [Hpc [Lpc D4']]].
        assert (pc' = pc) as ->.
        { apply Hin. apply find_target_some. auto. }
        apply Res; [|lia]. apply D4'; auto; try lia.
        * split.
          { intros p Hp. pose proof (Gr p Hp) as Lg. rewrite At by lia. destruct (in_dec Nat.eq_dec p gotos); [rewrite Len; auto|contradiction]. }
          { intros p Lp Np. rewrite At by lia. destruct (in_dec Nat.eq_dec p gotos); [contradiction|].
            replace (p =? spc) with false by (symmetry; apply Nat.eqb_neq; lia). apply pref_nth; [|lia].
            eapply pref_trans; apply pref_ext; eauto. }
        * eapply sides_ext; eauto.
      + assert (pc' = length (bare s4)) as ->.
        { apply Hnin. rewrite Mf. apply find_target_none. auto. }
        apply Res; [|lia].
        assert (A5 : agree s4 s5).
        { intros p Lp. rewrite At by lia. destruct (in_dec Nat.eq_dec p gotos) as [Hi|Hi]; [specialize (Gr _ Hi); lia|].
          replace (p =? spc) with false by (symmetry; apply Nat.eqb_neq; lia). apply pref_nth; [apply pref_ext; auto|lia]. }
        assert (G5 : good exit s1 (length (bare s4)) (length (bare s5)) (Some (Local dest)) l1 sM2 (ev exit d env sE1)).
        { apply D5; auto; try lia.
          - eapply sides_ext; eauto.
          - rewrite (e_vars _ _ X4). auto. }
        destruct exit; [exact G5|]. apply good_sub in G5.
        destruct G5 as [[x5 [sE5 [w5 [l5 [sM5 [y5 [Q5 [Hv5 [T5 [G5 [Vy5 [R5 P5]]]]]]]]]]]] | [o [sE5 [o' [sM5 [Q5 [Nv5 [T5 [O5 R5]]]]]]]]].
        * rewrite Q5. injection Hv5 as <-. unfold good. cbn [fst snd].
          assert (Hnop : exists ops', nth_error I (length (bare s5)) = Some (ops', INop)).
          { rewrite B6, app_length in At. cbn [length] in At. specialize (At (length (bare s5)) ltac:(lia)).
            destruct (in_dec Nat.eq_dec (length (bare s5)) gotos) as [Hi|Hi]; [specialize (Gr _ Hi); lia|].
            replace (length (bare s5) =? spc) with false in At by (symmetry; apply Nat.eqb_neq; lia).
            rewrite nth_error_app2, Nat.sub_diag in At by lia. cbn [nth_error] in At.
            rewrite nth_error_map in At. destruct (nth_error I (length (bare s5))) as [[ops' j]|]; cbn in At; try discriminate. injection At as ->. eauto. }
          destruct Hnop as [ops' Hnop].
          exists (Local dest), l5, (do_ops blk ops' sM5), y5. split; auto. split.
          { eapply steps_trans; [exact T5|]. rewrite Len, B6, app_length. cbn [length]. rewrite Nat.add_1_r.
            eapply steps_step; [exact Hnop|cbn [CodeModel.exec]; reflexivity|lia|apply steps_refl]. }
          split; auto. split; auto. split; [apply do_ops_srel; auto|auto].
        * rewrite Q5. eapply good_fail; [exact Nv5|exact T5|exact O5|exact R5].
  Qed.

  (** ** All expressions *)
  Lemma sizes_in : forall (l : list tc) e, In e l -> size e <= fold_right (fun e n => size e + n) 0 l.
  Proof. intros. apply size_in. auto. Qed.
  Lemma sizes_in_o : forall l e, In (Some e) l -> size e <= fold_right (fun e n => match e with Some e => size e | None => 0 end + n) 0 l.
  Proof. induction l as [|x l IH]; intros e []; cbn; [subst; lia|]. specialize (IH _ H). lia. Qed.
  Lemma sizes_in_t : forall (l : list (nat * tc)) p, In p l -> size (snd p) <= fold_right (fun p n => size (snd p) + n) 0 l.
  Proof. induction l as [|x l IH]; intros e []; cbn; [subst; lia|]. specialize (IH _ H). lia. Qed.

  Lemma size_pos : forall e, 1 <= size e.
  Proof. destruct e; cbn; lia. Qed.

  Theorem compile_spec : forall k exit e, size e <= k -> spec (compile k) exit e.
  Proof.
    induction k; intros exit e Sz; [pose proof (size_pos e); lia|].
    destruct e as [|v|r bs b|fs|src fs|t a|c nt ts d|isS o t|scope b|f a|fs|ls].
    - apply (ok_const exit IType TType (compile (S k)) VType VType); [reflexivity|reflexivity|constructor|reflexivity].
    - apply ok_var. reflexivity.
    - cbn [size] in Sz. apply ok_let.
      + apply Forall_forall. intros e He. apply IHk. apply sizes_in in He. lia.
      + apply IHk. lia.
    - cbn [size] in Sz. apply (ok_struct_like exit IStruct (TStruct fs) (compile (S k)) fs VStruct VStruct k); try reflexivity.
      + intros xs ys F. constructor. auto.
      + intros vs d pc l sM ys G. cbn [CodeModel.exec]. rewrite G. reflexivity.
      + apply Forall_forall. intros e He. apply IHk. apply sizes_in in He. lia.
    - cbn [size] in Sz. apply ok_copy; [apply IHk; lia|]. apply Forall_forall. intros [e|] He; cbn; auto.
      apply IHk. apply sizes_in_o in He. lia.
    - cbn [size] in Sz. apply (ok_one exit (IUnion t) (TUnion t a) (compile (S k)) a (fun v s => (Ret (VUnion t v), s)) k); try reflexivity; [|apply IHk; lia].
      intros x y sM sE l v d V G R _. left. exists (VUnion t x), (VUnion t y). split; auto. split; [constructor; auto|].
      intros sM' _ pc. cbn [CodeModel.exec]. rewrite G. reflexivity.
    - cbn [size] in Sz. apply ok_select; [apply IHk; lia| |apply IHk; lia].
      apply Forall_forall. intros p Hp. apply IHk. apply sizes_in_t in Hp. lia.
    - cbn [size] in Sz. eapply (ok_one exit (fun v d => IAccess isS v t d) (TAccess isS o t) (compile (S k)) o _ k); [reflexivity|reflexivity|reflexivity| |apply IHk; lia].
      intros x y sM sE l v d V G R Ld. exact (access_cases isS t x y sM sE l v d V G R Ld).
    - apply ok_func; auto.
    - apply ok_apply; auto.
    - cbn [size] in Sz. apply (ok_struct_like exit IList (TList fs) (compile (S k)) fs list_value list_value k); try reflexivity.
      + intros xs ys F. apply list_value_rel. auto.
      + intros vs d pc l sM ys G. cbn [CodeModel.exec]. rewrite G. reflexivity.
      + apply Forall_forall. intros e He. apply IHk. apply sizes_in in He. lia.
    - apply (ok_const exit (ILiteral ls) (TLiteral ls) (compile (S k)) (literal_value ls) (literal_value ls)); [reflexivity|reflexivity|apply literal_value_rel|reflexivity].
  Qed.
End dyn.
