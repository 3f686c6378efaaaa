(** * Compiled code and the reference evaluator agree on every call. *)
From Coq Require Import List Arith Lia Bool.
From Verif Require Import FuncModel FuncProps CodeModel CompileModel CompileEval CompileStatic CompileRel CompileDyn.
Import ListNotations.

Lemma run_rel : forall callM callE,
  (forall s t f g xs ys, srel s t -> vrel f g -> Forall2 vrel xs ys -> rrel (callM s f xs) (callE t g ys)) ->
  forall c b blk blk' stM stE argM argE s t, compiled c b -> Forall2 vrel stM stE -> Forall2 vrel argM argE ->
  length stM = code_num_statics c -> length argM = code_num_args c -> srel s t ->
  rrel (interpret callM c blk stM argM s) (ev_run callE b blk' stE argE t).
Proof.
  intros callM callE Hc c b blk blk' stM stE argM argE s t [k [b0 [bst [bn [r [fs [E [Sz [W [Hi Hl]]]]]]]]]] Hst Harg Ls La R.
  set (s0 := init_scope (code_num_args c) (code_num_statics c) b0 (b0 :: bst) bn) in *.
  destruct (init_inv (code_num_args c) (code_num_statics c) b0 (b0 :: bst) bn) as [Iv Ev].
  destruct (compile_spec callM callE Hc blk stM argM stE argE Hst Harg (code_instrs c) k true b Sz [] s0) as [r' [fs' [E' [_ [S D]]]]]; auto.
  { cbn [srefs arefs s0 init_scope]. rewrite !repeat_length. auto. }
  rewrite E in E'. injection E' as <- <-.
  assert (Sd : sides stM argM s0).
  { unfold sides, s0. cbn [srefs arefs init_scope]. rewrite !repeat_length. auto. }
  assert (A : agree (code_instrs c) s0 fs).
  { intros pc Hpc. rewrite Hi. reflexivity. }
  assert (L : length (slots fs) <= length (repeat (@None cval) (code_num_locals c))) by (rewrite repeat_length; lia).
  specialize (D (repeat None (code_num_locals c)) [] s t Sd A L (Forall2_nil _) R).
  unfold good in D. destruct D as [o [sM' [T [O Rs]]]]. unfold interpret.
  change (length (bare s0)) with 0 in T. rewrite (stops_loop _ _ _ _ _ _ _ _ _ _ T (length (code_instrs c))) by lia. split; auto.
Qed.

Lemma push_srel : forall s t e e', srel s t -> srel (push_frame (log e s)) (push_frame (log e' t)).
Proof. intros s t e e' [H D]. split; cbn; auto. Qed.
Lemma log_srel2 : forall s t e e', srel s t -> srel (log e s) (log e' t).
Proof. intros s t e e' [H D]. split; cbn; auto. Qed.

Lemma pop_rel : forall o o' s t, outrel o o' -> srel s t -> rrel (pop_with o s) (pop_with o' t).
Proof.
  intros o o' s t O [H D]. unfold pop_with, pop_frame. rewrite D. destruct (depth t) eqn:E.
  - split; cbn; [constructor|split; auto; congruence].
  - split; cbn; auto. split; auto.
Qed.

Lemma F2_skip : forall {A B} (R : A -> B -> Prop) n l l', Forall2 R l l' -> Forall2 R (skipn n l) (skipn n l').
Proof. induction n; intros l l' H; auto. destruct H; cbn; auto. Qed.
Lemma F2_first : forall {A B} (R : A -> B -> Prop) n l l', Forall2 R l l' -> Forall2 R (firstn n l) (firstn n l').
Proof. induction n; intros l l' H; cbn; auto. destruct H; cbn; auto. Qed.

Lemma run_fn_rel : forall callM callE,
  (forall s t f g xs ys, srel s t -> vrel f g -> Forall2 vrel xs ys -> rrel (callM s f xs) (callE t g ys)) ->
  forall f g xs ys na s t, vrel f g -> num_args_of f = Some na -> na <= length xs -> Forall2 vrel xs ys -> srel s t ->
  rrel (run_fn interpret callM s f xs) (run_fn ev_run callE t g ys).
Proof.
  intros callM callE Hc f g xs ys na s t V N L F R. destruct V; cbn in N; try discriminate; cbn [run_fn].
  - injection N as ->. apply run_rel; auto.
    + apply F2_first. auto.
    + rewrite firstn_length. lia.
  - apply Hc; auto. apply Forall2_app; auto. apply F2_first. auto.
Qed.

Lemma papp_rel : forall f g f' g' xs ys, vrel f g -> vrel f' g' -> Forall2 vrel xs ys ->
  vrel (partial_apply f f' xs) (partial_apply g g' ys).
Proof.
  intros f g f' g' xs ys V V' F. unfold partial_apply. rewrite (num_args_rel _ _ V), (F2_len _ _ _ F).
  destruct (num_args_of g); constructor; auto.
Qed.

Theorem call_rel : forall n,
  (forall s t f g xs ys, srel s t -> vrel f g -> Forall2 vrel xs ys -> rrel (icall n s f xs) (ecall n t g ys)) /\
  (forall s t f g xs ys, srel s t -> vrel f g -> Forall2 vrel xs ys ->
     rrel (tail_call interpret n s f xs) (tail_call ev_run n t g ys)).
Proof.
  induction n as [|n [IH1 IH2]].
  - split; intros; cbn; (split; [constructor|auto]).
  - unfold icall, ecall in *. split; intros s t f g xs ys R V F.
    + rewrite !call_S. pose proof (strict_value_rel _ _ _ _ R V) as SR.
      destruct SR as [a b Vab NR| |]; try (split; cbn; [constructor|auto]; fail).
      rewrite (num_args_rel _ _ Vab). destruct (num_args_of b) as [na|] eqn:Na; [|split; cbn; [constructor|auto]].
      rewrite (F2_len _ _ _ F). destruct (length ys <? na) eqn:L.
      * split; cbn [fst snd]; auto. constructor. apply papp_rel; auto.
      * apply Nat.ltb_ge in L.
        assert (Rr : rrel (run_fn interpret (call interpret n) (push_frame (log (PEnter (block_of a)) s)) a xs)
                          (run_fn ev_run (call ev_run n) (push_frame (log (PEnter (block_of b)) t)) b ys)).
        { apply (run_fn_rel _ _ IH1) with (na := na); auto.
          - rewrite (num_args_rel _ _ Vab). auto.
          - rewrite (F2_len _ _ _ F). auto.
          - apply push_srel. auto. }
        destruct (run_fn interpret _ _ a xs) as [o1 s1], (run_fn ev_run _ _ b ys) as [o2 t1]. destruct Rr as [O Rs]. cbn [fst snd] in O, Rs.
        pose proof (F2_skip vrel na _ _ F) as Fu.
        assert (Fin : forall q1 q2, rrel q1 q2 -> rrel (let '(r', s3) := q1 in (r', log PExit s3)) (let '(r', s3) := q2 in (r', log PExit s3))).
        { intros [p1 p2] [q1 q2] [H1 H2]. split; cbn; auto. }
        apply Fin. clear Fin.
        destruct O as [u v Vuv|g1 g2 as1 as2 Vg Vas| | |].
        -- destruct Fu as [|u1 v1 us vs Vu1 Fus].
           ++ apply pop_rel; auto. constructor. auto.
           ++ unfold pop_frame. destruct Rs as [Rs1 Rs2]. rewrite Rs2. destruct (depth t1) eqn:Ed; [split; cbn; [constructor|split; auto; congruence]|].
              apply IH1; auto. split; cbn; auto.
        -- apply IH2; auto. apply Forall2_app; auto.
        -- apply pop_rel; auto. constructor.
        -- split; cbn; auto. constructor.
        -- split; cbn; auto. constructor.
    + rewrite !tail_call_S. cbv zeta. pose proof (strict_value_rel _ _ _ _ R V) as SR.
      destruct SR as [a b Vab NR| |]; try (split; cbn; [constructor|auto]; fail).
      rewrite (num_args_rel _ _ Vab). destruct (num_args_of b) as [na|] eqn:Na; [|split; cbn; [constructor|auto]].
      rewrite (F2_len _ _ _ F). destruct (length ys <? na) eqn:L.
      * apply pop_rel; auto. constructor. apply papp_rel; auto.
      * apply Nat.ltb_ge in L.
        assert (Rr : rrel (run_fn interpret (call interpret n) (log (PReplace (block_of a)) s) a xs)
                          (run_fn ev_run (call ev_run n) (log (PReplace (block_of b)) t) b ys)).
        { apply (run_fn_rel _ _ IH1) with (na := na); auto.
          - rewrite (num_args_rel _ _ Vab). auto.
          - rewrite (F2_len _ _ _ F). auto.
          }
        destruct (run_fn interpret _ _ a xs) as [o1 s1], (run_fn ev_run _ _ b ys) as [o2 t1]. destruct Rr as [O Rs]. cbn [fst snd] in O, Rs.
        pose proof (F2_skip vrel na _ _ F) as Fu.
        destruct O as [u v Vuv|g1 g2 as1 as2 Vg Vas| | |].
        -- destruct Fu as [|u1 v1 us vs Vu1 Fus].
           ++ apply pop_rel; auto. constructor. auto.
           ++ assert (Rc := IH1 s1 t1 u v (u1 :: us) (v1 :: vs) Rs Vuv (Forall2_cons _ _ Vu1 Fus)).
              destruct (call interpret n s1 u (u1 :: us)) as [o1 s2], (call ev_run n t1 v (v1 :: vs)) as [o2 t2].
              destruct Rc as [O2 R2]. cbn [fst snd] in O2, R2.
              destruct O2.
              ** apply pop_rel; auto. constructor. auto.
              ** split; auto. cbn. constructor; auto.
              ** apply pop_rel; auto. constructor.
              ** split; auto. constructor.
              ** split; auto. constructor.
        -- apply IH2; auto. apply Forall2_app; auto.
        -- apply pop_rel; auto. constructor.
        -- split; cbn; auto. constructor.
        -- split; cbn; auto. constructor.
Qed.

(** The compiler never fails on a well scoped expression. *)
Theorem compile_total : forall nargs e, wf 0 nargs [] e = true ->
  exists c nblocks, compile_code nargs e = Some (c, nblocks) /\ compiled c e /\
    code_num_args c = nargs /\ code_num_statics c = 0.
Proof.
  intros nargs e W. unfold compile_code.
  set (s0 := init_scope nargs 0 0 [0] 1) in *. destruct (init_inv nargs 0 0 [0] 1) as [Iv Ev].
  assert (Hc : forall s t f g xs ys, srel s t -> vrel f g -> Forall2 vrel xs ys -> rrel (icall 0 s f xs) (ecall 0 t g ys)) by apply call_rel.
  destruct (compile_spec _ _ Hc 0 [] [] [] [] (Forall2_nil _) (Forall2_nil _) [] (size e) true e (le_n _) [] s0) as [r [fs [E [_ [S _]]]]]; auto.
  { cbn [srefs arefs s0 init_scope]. rewrite ?repeat_length. exact W. }
  rewrite E. pose proof (x_ext _ _ _ S) as X.
  destruct (exit_block_spec true fs 0 []) as [fs1 [E2 [Sc2 [Bs2 [Bc2 Ls2]]]]].
  { rewrite (e_bstack _ _ X). reflexivity. }
  rewrite E2. assert (I2 : instrs fs1 = instrs fs).
  { unfold exit_block in E2. rewrite (e_bstack _ _ X) in E2. cbn in E2. injection E2 as <-. reflexivity. }
  assert (Vf : vars fs1 = []) by (destruct Sc2 as [_ [_ [_ [V _]]]]; rewrite V, (e_vars _ _ X); reflexivity).
  unfold free_scope. rewrite Vf. cbn [length pop_vars]. rewrite Bs2.
  eexists. eexists. split; [reflexivity|]. cbn [code_num_args code_num_statics finish_code].
  split; auto. exists (size e), 0, [], 1, r, fs. cbn [code_num_args code_num_statics finish_code code_instrs code_num_locals].
  split; [exact E|]. split; [auto|]. split; [exact W|]. split; congruence.
Qed.

(** The compiled code of an expression does what the reference evaluator does. *)
Theorem compiled_runs : forall nargs e c nblocks, wf 0 nargs [] e = true -> compile_code nargs e = Some (c, nblocks) ->
  forall n blk blk' argM argE s t, Forall2 vrel argM argE -> length argM = nargs -> srel s t ->
  rrel (interpret (icall n) c blk [] argM s) (ev_run (ecall n) e blk' [] argE t).
Proof.
  intros nargs e c nb W E n blk blk' argM argE s t F L R.
  destruct (compile_total nargs e W) as [c' [nb' [E' [C [Na Ns]]]]]. rewrite E in E'. injection E' as <- <-.
  apply run_rel; auto; [apply call_rel|congruence].
Qed.
