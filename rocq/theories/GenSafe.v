(** * Accepted programs run safely through generated C too (C47, C48). *)
From Coq Require Import ZArith String List Arith Lia Bool.
From Verif Require Import PathModel PathProps LoadModel FuncModel CodeModel CodeProps CompileModel CompileEval LinkModel LinkProps TypeModel CheckModel CheckSpec CheckProps CheckSafeSpec CheckProgram
  GenModel GenLabel GenCode FuncSim GenRun GenProg GenProps.
Import ListNotations.
Local Open Scope list_scope.

(** When the type checker accepts the modules, C is generated for each and the files are
    linked by the C linker, then the program starts, and however long it runs it does not do
    what is undefined: it does what the interpreted program does, which is safe. *)
Theorem accepted_programs_safe_generated_partial : forall fuel ms rs u e s g main_id blk tus,
  Forall monomorphic_module ms ->
  check_modules fuel ms [] (MkState [] []) = Done (map Some (rs ++ [(u, e)])) s ->
  Forall2 (fun mr c => built (fst mr) (snd (snd mr)) c) (combine ms (rs ++ [(u, e)])) (map g_module (load_generated [] g)) ->
  (forall t, t < List.length (types s) -> founded (types s) t) ->
  one_module_per_path g -> paths_ok g -> NoDup (map t_label tus) ->
  (forall h, reaches g h -> c_block (g_module h) = blk (g_path h) /\
    exists names t, generate names (g_module h) = Some t /\ In t tus) ->
  exists label img f f', label_for_path (g_path g) = Some label /\ c_image (gsize g) tus label = Some img /\
    link_generated main_id g = Some f /\ c_link main_id blk img = Some f' /\
    forall n, safe_result (types s) u (icall n (mk_st [] 0 []) f []) /\
      same_res (same_fun tus) (icall n (mk_st [] 0 []) f []) (gcall tus n (mk_st [] 0 []) f' []) /\
      fst (gcall tus n (mk_st [] 0 []) f' []) <> Crash.
Proof.
  intros fuel ms rs u e s g main_id blk tus Mo H Bs Fo One Pok Nd Ok.
  assert (Go : check_program fuel ms = Done (Some (map snd (rs ++ [(u, e)]))) s).
  { unfold check_program, bind, ret. rewrite H. f_equal. f_equal. clear. generalize (rs ++ [(u, e)]) as l. induction l as [|x l IH]; cbn; auto.
    destruct (somes (map Some l)) as [y|]; cbn in *; congruence. }
  pose proof (accepted_compiles _ _ _ _ Go) as Ac.
  destruct (generated_modules_in_order g One Pok) as [_ [_ [Mem _]]].
  assert (Ct : forall h, reaches g h -> compiled_to tus h /\ c_block (g_module h) = blk (g_path h)).
  { intros h R. destruct (Ok h R) as [Hb [names [t [G I]]]]. split; auto. apply Mem in R.
    assert (Q : exists e nb, wf 0 (List.length (c_deps (g_module h))) [] e = true /\ compile_code (List.length (c_deps (g_module h))) e = Some (c_code (g_module h), nb)).
    { pose proof (in_map g_module _ _ R) as I'. revert Bs Ac I'. generalize (rs ++ [(u, e)]) as l, (map g_module (load_generated [] g)) as cs. clear.
      intros l cs Bs Ac I. revert l cs Bs Ac I. induction ms as [|m ms IH]; intros l cs Bs Ac I; cbn [combine] in Bs.
      - inversion Bs; subst. destruct I.
      - destruct l as [|r l]; [inversion Ac|]. inversion Bs as [|? c ? cs' [B1 [B2 [e [nb [Ee [Br Ec]]]]]] Bs']; subst. inversion Ac as [|? ? ? ? A1 A2]; subst.
        cbn [fst snd] in *. destruct I as [<-|I]; [|eapply IH; eauto].
        destruct (A1 e Ee Br) as [W _]. rewrite B2, map_length. eauto. }
    destruct Q as [e' [nb [W E]]]. replace (List.length (c_deps (g_module h))) with (List.length (g_deps h)) in * by (destruct h; cbn; rewrite map_length; reflexivity).
    exists e', nb, names, t. auto. }
  destruct (generated_program_same main_id blk g tus One Pok Nd Ct) as [label [img [f [f' [El [Ei [Ef [Ef' [Sv [Sc _]]]]]]]]]].
  exists label, img, f, f'. split; auto. split; auto. split; auto. split; auto. intros n.
  assert (Sr : safe_result (types s) u (icall n (mk_st [] 0 []) f [])).
  { destruct (generated_program_runs main_id g One Pok) as [c [Ef2 [O _]]].
    { intros h R. destruct (Ct h R) as [[e' [nb [names [t [W [E _]]]]]] _]. destruct (compile_code_arity _ _ _ _ E). auto. }
    rewrite Ef in Ef2. injection Ef2 as ->. unfold link_generated in Ef. cbv zeta in Ef.
    destruct (forallb _ _); [|discriminate]. destruct (link_code main_id (map g_module (load_generated [] g))) as [c'|] eqn:Ec; [|discriminate].
    injection Ef as Ec' _. subst c'. eapply accepted_safe_at; eauto. }
  split; auto. pose proof (Sc n (mk_st [] 0 []) (mk_st [] 0 []) f f' [] []) as Sm.
  assert (S0 : same_res (same_fun tus) (icall n (mk_st [] 0 []) f []) (gcall tus n (mk_st [] 0 []) f' [])).
  { apply Sm; auto. repeat split; constructor. }
  split; auto. destruct S0 as [S0|[S0 _]].
  - destruct (icall n (mk_st [] 0 []) f []) as [o s1]. cbn in S0. subst. destruct Sr.
  - intros Cr. rewrite Cr in S0. destruct (icall n (mk_st [] 0 []) f []) as [o s1]. cbn [fst] in S0. inversion S0; subst; destruct Sr.
Qed.

(** ** Example: the two modules of CheckProgram.cast_program, with casts into and out of an
    abstract type, through C. *)
Definition cast_result := Eval vm_compute in
  match check_modules 60 cast_program [] (MkState [] []) with Done [Some (t0, Some e0); Some (t1, Some e1)] s => Some (t0, e0, (t1, e1), s) | _ => None end.
Definition cast_e0 : tc := Eval vm_compute in match cast_result with Some (_, e, _, _) => e | None => CompileModel.TType end.
Definition cast_e1 : tc := Eval vm_compute in match cast_result with Some (_, _, (_, e), _) => e | None => CompileModel.TType end.
Definition cast_t0 : nat := Eval vm_compute in match cast_result with Some (t, _, _, _) => t | None => 0 end.
Definition cast_t1 : nat := Eval vm_compute in match cast_result with Some (_, _, (t, _), _) => t | None => 0 end.
Definition cast_s : state := Eval vm_compute in match cast_result with Some (_, _, _, s) => s | None => MkState [] [] end.
Definition cast_c0 : code := Eval vm_compute in match compile_code 0 cast_e0 with Some (c, _) => c | None => Code 0 0 0 0 [] end.
Definition cast_c1 : code := Eval vm_compute in match compile_code 1 cast_e1 with Some (c, _) => c | None => Code 0 0 0 0 [] end.
Definition cast_n0 : nat := Eval vm_compute in match compile_code 0 cast_e0 with Some (_, n) => n | None => 0 end.
Definition cast_n1 : nat := Eval vm_compute in match compile_code 1 cast_e1 with Some (_, n) => n | None => 0 end.
Definition cast_g0 : gmodule := GModule (link_path ["M"%string]) [] cast_c0 0.
Definition cast_g1 : gmodule := GModule (link_path ["N"%string]) [cast_g0] cast_c1 0.
Definition cast_names : list str := map (fun i => [47; 77; 37; 48 + Z.of_nat i]%Z) (seq 0 9).
Definition cast_u0 : tunit := Eval vm_compute in match generate cast_names (g_module cast_g0) with Some t => t | None => mk_tunit [] [] [] (mk_exe 0 0 []) [] [] end.
Definition cast_u1 : tunit := Eval vm_compute in match generate cast_names (g_module cast_g1) with Some t => t | None => mk_tunit [] [] [] (mk_exe 0 0 []) [] [] end.

Lemma cast_built : built (nth 0 cast_program (MkLModule [] [] None None)) (Some cast_e0) (g_module cast_g0) /\
  built (nth 1 cast_program (MkLModule [] [] None None)) (Some cast_e1) (g_module cast_g1).
Proof.
  split; (split; [reflexivity|]; split; [reflexivity|]).
  - exists cast_e0, cast_n0. split; [reflexivity|]. split; [vm_compute; repeat constructor|]. vm_compute. reflexivity.
  - exists cast_e1, cast_n1. split; [reflexivity|]. split; [vm_compute; repeat constructor|]. vm_compute. reflexivity.
Qed.
Lemma cast_generated : generate cast_names (g_module cast_g0) = Some cast_u0 /\ generate cast_names (g_module cast_g1) = Some cast_u1.
Proof. split; vm_compute; reflexivity. Qed.
Lemma cast_checked : check_modules 60 cast_program [] (MkState [] []) = Done (map Some ([(cast_t0, Some cast_e0)] ++ [(cast_t1, Some cast_e1)])) cast_s.
Proof. vm_compute. reflexivity. Qed.
Lemma cast_reaches : forall h, reaches cast_g1 h -> h = cast_g1 \/ h = cast_g0.
Proof.
  intros h H. inversion H as [|? ? ? I H']; subst; auto. destruct I as [<-|[]]. inversion H' as [|? ? ? I' ?]; subst; auto. destruct I'.
Qed.
Lemma cast_load : map g_module (load_generated [] cast_g1) = [g_module cast_g0; g_module cast_g1].
Proof. vm_compute. reflexivity. Qed.

Theorem cast_program_through_c : exists label img f f', label_for_path (g_path cast_g1) = Some label /\ c_image (gsize cast_g1) [cast_u0; cast_u1] label = Some img /\
    link_generated 7 cast_g1 = Some f /\ c_link 7 (fun _ => 0) img = Some f' /\
    forall n, safe_result (types cast_s) cast_t1 (icall n (mk_st [] 0 []) f []) /\
      same_res (same_fun [cast_u0; cast_u1]) (icall n (mk_st [] 0 []) f []) (gcall [cast_u0; cast_u1] n (mk_st [] 0 []) f' []) /\
      fst (gcall [cast_u0; cast_u1] n (mk_st [] 0 []) f' []) <> Crash.
Proof.
  apply (accepted_programs_safe_generated_partial 60 cast_program [(cast_t0, Some cast_e0)] cast_t1 (Some cast_e1) cast_s cast_g1 7 (fun _ => 0) [cast_u0; cast_u1]).
  - repeat constructor; intros x Ex; injection Ex as <-; reflexivity.
  - exact cast_checked.
  - rewrite cast_load. destruct cast_built as [B0 B1]. constructor; [exact B0|]. constructor; [exact B1|]. constructor.
  - apply (all_founded 20). vm_compute. reflexivity.
  - intros a b Ha Hb. apply cast_reaches in Ha. apply cast_reaches in Hb. destruct Ha as [->| ->], Hb as [->| ->]; auto; discriminate.
  - intros a Ha. apply cast_reaches in Ha. destruct Ha as [->| ->]; repeat constructor; cbn; lia.
  - repeat constructor; cbn; intuition discriminate.
  - destruct cast_generated as [G0 G1]. intros h R. apply cast_reaches in R. destruct R as [->| ->]; (split; [reflexivity|]).
    + exists cast_names, cast_u1. split; [exact G1|cbn; auto].
    + exists cast_names, cast_u0. split; [exact G0|cbn; auto].
Qed.
