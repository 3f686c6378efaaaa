(** * C51: assembly can be generated for every compiled module, and accepted programs run
    safely through it. *)
From Coq Require Import ZArith String List Arith Lia Bool.
From Verif Require Import PathModel PathProps LoadModel FuncModel CodeModel CodeProps CompileModel CompileEval LinkModel LinkProps TypeModel CheckModel CheckSpec CheckProps CheckSafeSpec CheckProgram
  GenModel GenLabel GenCode FuncSim GenRun GenProg GenProps GenValid GenSafe AsmModel AsmSearch AsmRun AsmCode AsmProg.
Import ListNotations.
Local Open Scope list_scope.

(** ** Generation succeeds *)
Lemma asm_symbol_total : forall names b, Forall ascii names -> b < List.length names -> exists f, asm_symbol names b = Some f.
Proof.
  intros names b F Lt. unfold asm_symbol. destruct (nth_error names b) as [s|] eqn:E; [|apply nth_error_None in E; lia].
  rewrite Forall_forall in F. pose proof (F _ (nth_error_In _ _ E)) as A.
  destruct (proj1 (sanitize_ascii s ltac:(eapply Forall_impl; [|exact A]; cbn; intros; lia)) A) as [x ->]. eauto.
Qed.

Lemma emit_body_total : forall names c, flat_ok c ->
  (forall ops d off c' sc, In (ops, IFunc d off c' sc) (code_instrs c) -> exists f, asm_symbol names (code_block c') = Some f) ->
  forall n pc, List.length (code_instrs c) - pc <= n -> exists b, emit_body names (code_block c) pc (skipn pc (code_instrs c)) = Some b.
Proof.
  intros names c Fl Sy. induction n as [|n IH]; intros pc Le.
  - rewrite skipn_all2 by lia. cbn. eauto.
  - destruct (nth_error (code_instrs c) pc) as [[ops i]|] eqn:N.
    2:{ apply nth_error_None in N. rewrite skipn_all2 by lia. cbn. eauto. }
    rewrite (skipn_nth _ _ _ N). cbn [emit_body]. destruct (Fl _ _ _ N) as [_ [So Fs]].
    destruct (IH (S pc) ltac:(lia)) as [y ->].
    assert (Ex : exists x, emit_main names (code_block c) pc i = Some x).
    { destruct i; cbn [emit_main]; eauto.
      - destruct is_struct; eauto.
      - destruct (So _ _ _ _ eq_refl) as [S1 S2].
        destruct (search_emitted (List.length targets) (code_block c) pc default 0 num_tags targets 0 (le_n _) S1) as [x [l ->]]; [|eauto].
        intros t It. split; [lia|auto].
      - destruct (Sy _ _ _ _ _ (nth_error_In _ _ N)) as [f ->]. rewrite (Fs _ _ _ _ eq_refl), Nat.leb_refl. eauto. }
    destruct Ex as [x ->]. eauto.
Qed.

(** Assembly can be generated for every module the compiler makes, if its path, those of its
    dependencies and the names of its profile blocks are ASCII: the assertion in the
    generation of union selects does not fail and no scope is read out of bounds. *)
Theorem asm_generation_succeeds : forall nargs e m nblocks names, wf 0 nargs [] e = true -> compile_code nargs e = Some (c_code m, nblocks) ->
  nblocks <= List.length names -> Forall ascii names ->
  Forall path_ok (c_path m :: c_deps m) -> Forall ascii_path (c_path m :: c_deps m) ->
  exists t, asm_generate names m = Some t.
Proof.
  intros nargs e m nblocks names W E Nb As Pk Ap. destruct (compiled_gen_ok _ _ _ _ W E) as [Go [_ Bl]].
  inversion Pk as [|? ? Pk1 Pk2]; subst. inversion Ap as [|? ? Ap1 Ap2]; subst.
  assert (Sy : forall c, In c (collect (c_code m)) -> exists f, asm_symbol names (code_block c) = Some f).
  { intros c I. apply asm_symbol_total; auto. rewrite Forall_forall in Bl. specialize (Bl (code_block c) (in_map _ _ _ I)). lia. }
  unfold asm_generate. destruct (proj1 (label_ascii _ Pk1) Ap1) as [l ->].
  destruct (all_some_total label_for_path (c_deps m)) as [ds ->].
  { intros p I. rewrite Forall_forall in Pk2, Ap2. apply label_ascii; auto. }
  destruct (Sy _ (collect_self _)) as [f ->].
  destruct (all_some_total (asm_code names) (collect (c_code m))) as [fs ->]; [|eauto].
  intros c I. unfold asm_code. destruct (Sy c I) as [g ->]. pose proof (gen_ok_in _ _ _ (le_n _) Go I) as Gc. inversion Gc as [? Fl _]; subst.
  destruct (emit_body_total names c Fl) with (n := List.length (code_instrs c)) (pc := 0) as [b Eb]; [|lia|cbn [skipn] in Eb; rewrite Eb; eauto].
  intros ops d off c' sc Ii. apply Sy. eapply collect_trans; [apply le_n|exact I|]. eapply collect_in; [exact Ii|apply collect_self].
Qed.

(** ** Accepted programs *)

(** When the type checker accepts the modules, assembly is generated for each and the files
    are assembled and linked, then the program starts, and however long it runs, wherever the
    stack is, it does not do what is undefined: it does what the interpreted program does,
    which is safe. *)
Theorem accepted_programs_safe_assembled_partial : forall fuel ms rs u e s g main_id blk aus,
  Forall monomorphic_module ms ->
  check_modules fuel ms [] (MkState [] []) = Done (map Some (rs ++ [(u, e)])) s ->
  Forall2 (fun mr c => built (fst mr) (snd (snd mr)) c) (combine ms (rs ++ [(u, e)])) (map g_module (load_generated [] g)) ->
  (forall t, t < List.length (types s) -> founded (types s) t) ->
  one_module_per_path g -> paths_ok g -> NoDup (map a_label aus) ->
  (forall h, reaches g h -> c_block (g_module h) = blk (g_path h) /\
    exists names t, asm_generate names (g_module h) = Some t /\ In t aus) ->
  exists label img f f', label_for_path (g_path g) = Some label /\ c_image (gsize g) (map data_of aus) label = Some img /\
    link_generated main_id g = Some f /\ c_link main_id blk img = Some f' /\
    forall n, safe_result (types s) u (icall n (mk_st [] 0 []) f []) /\
      forall entry, (forall s, entry s mod 16 = 0)%Z ->
        same_res (same_fun_a aus) (icall n (mk_st [] 0 []) f []) (acall entry aus n (mk_st [] 0 []) f' []) /\
        fst (acall entry aus n (mk_st [] 0 []) f' []) <> Crash.
Proof.
  intros fuel ms rs u e s g main_id blk aus Mo H Bs Fo One Pok Nd Ok.
  assert (Go : check_program fuel ms = Done (Some (map snd (rs ++ [(u, e)]))) s).
  { unfold check_program, bind, ret. rewrite H. f_equal. f_equal. clear. generalize (rs ++ [(u, e)]) as l. induction l as [|x l IH]; cbn; auto.
    destruct (somes (map Some l)) as [y|]; cbn in *; congruence. }
  pose proof (accepted_compiles _ _ _ _ Go) as Ac.
  destruct (generated_modules_in_order g One Pok) as [_ [_ [Mem _]]].
  assert (Ct : forall h, reaches g h -> assembled_to aus h /\ c_block (g_module h) = blk (g_path h)).
  { intros h R. destruct (Ok h R) as [Hb [names [t [G I]]]]. split; auto. apply Mem in R.
    assert (Q : exists e nb, wf 0 (List.length (c_deps (g_module h))) [] e = true /\ compile_code (List.length (c_deps (g_module h))) e = Some (c_code (g_module h), nb)).
    { pose proof (in_map g_module _ _ R) as I'. revert Bs Ac I'. generalize (rs ++ [(u, e)]) as l, (map g_module (load_generated [] g)) as cs. clear.
      intros l cs Bs Ac I. revert l cs Bs Ac I. induction ms as [|m ms IH]; intros l cs Bs Ac I; cbn [combine] in Bs.
      - inversion Bs; subst. destruct I.
      - destruct l as [|r l]; [inversion Ac|]. inversion Bs as [|? c ? cs' [B1 [B2 [e [nb [Ee [Br Ec]]]]]] Bs']; subst. inversion Ac as [|? ? ? ? A1 A2]; subst.
        cbn [fst snd] in *. destruct I as [<-|I]; [|eapply IH; eauto].
        destruct (A1 e Ee Br) as [W _]. rewrite B2, map_length. eauto. }
    destruct Q as [e' [nb [W E]]]. replace (List.length (c_deps (g_module h))) with (List.length (g_deps h)) in * by (destruct h; cbn; rewrite map_length; reflexivity).
    exists e', nb, names, t. auto. }
  destruct (asm_program_same main_id blk g aus One Pok Nd Ct) as [label [img [f [f' [El [Ei [Ef [Ef' [Sv Sc]]]]]]]]].
  exists label, img, f, f'. split; auto. split; auto. split; auto. split; auto. intros n.
  assert (Sr : safe_result (types s) u (icall n (mk_st [] 0 []) f [])).
  { destruct (generated_program_runs main_id g One Pok) as [c [Ef2 [O _]]].
    { intros h R. destruct (Ct h R) as [[e' [nb [names [t [W [E _]]]]]] _]. destruct (compile_code_arity _ _ _ _ E). auto. }
    rewrite Ef in Ef2. injection Ef2 as ->. unfold link_generated in Ef. cbv zeta in Ef.
    destruct (forallb _ _); [|discriminate]. destruct (link_code main_id (map g_module (load_generated [] g))) as [c'|] eqn:Ec; [|discriminate].
    injection Ef as Ec' _. subst c'. eapply accepted_safe_at; eauto. }
  split; auto. intros entry He. destruct (Sc entry n He) as [Sm _]. specialize (Sm (mk_st [] 0 []) (mk_st [] 0 []) f f' [] []).
  assert (S0 : same_res (same_fun_a aus) (icall n (mk_st [] 0 []) f []) (acall entry aus n (mk_st [] 0 []) f' [])).
  { apply Sm; auto. repeat split; constructor. }
  split; auto. destruct S0 as [S0|[S0 _]].
  - destruct (icall n (mk_st [] 0 []) f []) as [o s1]. cbn in S0. subst. destruct Sr.
  - intros Cr. rewrite Cr in S0. destruct (icall n (mk_st [] 0 []) f []) as [o s1]. cbn [fst] in S0. inversion S0; subst; destruct Sr.
Qed.

(** ** Example: the two modules of GenSafe.cast_program_through_c, through assembly. *)
Definition cast_a0 : aunit := Eval vm_compute in match asm_generate cast_names (g_module cast_g0) with Some t => t | None => mk_aunit [] [] [] (mk_exe 0 0 []) [] end.
Definition cast_a1 : aunit := Eval vm_compute in match asm_generate cast_names (g_module cast_g1) with Some t => t | None => mk_aunit [] [] [] (mk_exe 0 0 []) [] end.

Lemma cast_assembled : asm_generate cast_names (g_module cast_g0) = Some cast_a0 /\ asm_generate cast_names (g_module cast_g1) = Some cast_a1.
Proof. split; vm_compute; reflexivity. Qed.

Theorem cast_program_through_assembly : exists label img f f', label_for_path (g_path cast_g1) = Some label /\ c_image (gsize cast_g1) (map data_of [cast_a0; cast_a1]) label = Some img /\
    link_generated 7 cast_g1 = Some f /\ c_link 7 (fun _ => 0) img = Some f' /\
    forall n, safe_result (types cast_s) cast_t1 (icall n (mk_st [] 0 []) f []) /\
      forall entry, (forall s, entry s mod 16 = 0)%Z ->
        same_res (same_fun_a [cast_a0; cast_a1]) (icall n (mk_st [] 0 []) f []) (acall entry [cast_a0; cast_a1] n (mk_st [] 0 []) f' []) /\
        fst (acall entry [cast_a0; cast_a1] n (mk_st [] 0 []) f' []) <> Crash.
Proof.
  apply (accepted_programs_safe_assembled_partial 60 cast_program [(cast_t0, Some cast_e0)] cast_t1 (Some cast_e1) cast_s cast_g1 7 (fun _ => 0) [cast_a0; cast_a1]).
  - repeat constructor; intros x Ex; injection Ex as <-; reflexivity.
  - exact cast_checked.
  - rewrite cast_load. destruct cast_built as [B0 B1]. constructor; [exact B0|]. constructor; [exact B1|]. constructor.
  - apply (all_founded 20). vm_compute. reflexivity.
  - intros a b Ha Hb. apply cast_reaches in Ha. apply cast_reaches in Hb. destruct Ha as [->| ->], Hb as [->| ->]; auto; discriminate.
  - intros a Ha. apply cast_reaches in Ha. destruct Ha as [->| ->]; repeat constructor; cbn; lia.
  - repeat constructor; cbn; intuition discriminate.
  - destruct cast_assembled as [G0 G1]. intros h R. apply cast_reaches in R. destruct R as [->| ->]; (split; [reflexivity|]).
    + exists cast_names, cast_a1. split; [exact G1|cbn; auto].
    + exists cast_names, cast_a0. split; [exact G0|cbn; auto].
Qed.
