(** * C51: modules compiled through generated AArch64 assembly behave like interpreted ones. *)
From Coq Require Import ZArith List Arith Lia Bool.
From Verif Require Import PathModel PathProps LoadModel FuncModel CodeModel CodeProps CompileModel CompileEval CompileRel CompileCalls CompileStatic LinkModel LinkProps GenModel GenLabel GenCode FuncSim GenRun GenProg GenProps AsmModel AsmSearch AsmRun AsmCode.
Import ListNotations.

(** ** Same functions *)
Definition runs_asm (aus : list aunit) (c : code) (i : nat) (f : str) : Prop :=
  exists names m t, nth_error aus i = Some t /\ asm_generate names m = Some t /\ gen_ok (c_code m) /\ NoDup (map code_block (collect (c_code m))) /\
    In c (collect (c_code m)) /\ asm_symbol names (code_block c) = Some f.
Definition same_fun_a (aus : list aunit) (n k : nat) (c : code) (p : cpay) : Prop :=
  match p with
  | CFn i f => runs_asm aus c i f
  | CMain c' => c' = c /\ main_code c
  end.

(** Running a function of an assembly file is interpreting the code it was made from. *)
Lemma asm_run_sim : forall entry aus callM callG, (forall s, entry s mod 16 = 0)%Z -> same_call (same_fun_a aus) callM callG -> forall c p blk ss ts xs ys s t,
  same_fun_a aus (length xs) (length ss) c p -> Forall2 (same_val (same_fun_a aus)) ss ts -> Forall2 (same_val (same_fun_a aus)) xs ys ->
  same_st (same_fun_a aus) s t ->
  same_res (same_fun_a aus) (interpret callM c blk ss xs s) (asm_run entry aus callG p blk ts ys t).
Proof.
  intros entry aus callM callG He Hc c p blk ss ts xs ys s t P Hss Hxs St. destruct p as [i f|c'].
  - destruct P as [names [m [au [Nt [Gt [Gok [Nd [Ic Sy]]]]]]]]. pose proof (asm_parts _ _ _ Gt) as Pt.
    destruct (code_in_file _ _ _ _ Pt Ic) as [x [P [R [Ex Fi]]]].
    assert (Nf : NoDup (labels_of (a_lines au))). { destruct (ap_funs _ _ _ Pt) as [fs [-> F]]. eapply file_labels; eauto. }
    pose proof (gen_ok_in _ _ _ (le_n _) Gok Ic) as Gc.
    unfold asm_code in Ex. rewrite Sy in Ex. set (fid := code_block c) in *. set (nl := code_num_locals c) in *.
    destruct (emit_body names fid 0 (code_instrs c)) as [b|] eqn:Em; [|discriminate].
    assert (Ex' : x = Lab (LSym f) :: prologue nl ++ b ++ epilogue fid nl ++ emit_outlines fid 0 (code_instrs c) ++ [Lab (LHigh fid)]) by congruence. clear Ex. subst x.
    cbn [asm_run]. rewrite Nt.
    set (outs := emit_outlines fid 0 (code_instrs c)) in *. set (rest := outs ++ [Lab (LHigh fid)] ++ R).
    assert (Fi2 : a_lines au = P ++ Lab (LSym f) :: prologue nl ++ b ++ epilogue fid nl ++ rest).
    { rewrite Fi. unfold rest. rewrite <- !app_comm_cons, <- !app_assoc. reflexivity. }
    rewrite (find_unique _ _ _ _ Nf Fi2 Logic.I). unfold interpret. fold nl.
    destruct (prologue_goes (same_fun_a aus) callG i blk ts ys (entry t) (a_lines au) nl (b ++ epilogue fid nl ++ rest) t (He t)) as [m0 [G0 I0]].
    assert (Len : 13 + (length b + length outs + 7) <= length (a_lines au)).
    { rewrite Fi2. unfold rest. rewrite app_length. cbn [length app prologue]. rewrite !app_length. cbn [length app epilogue]. lia. }
    rewrite (run_goes callG i blk ts ys (entry t) (a_lines au) 1 _ _ _ _ _ _ _ (goes_lab _ _ _ _ _ _ _ _ _ _ _)) by lia.
    rewrite (run_goes callG i blk ts ys (entry t) (a_lines au) _ _ _ _ _ _ _ _ G0) by lia.
    eapply (loop_sim (same_fun_a aus) callM callG Hc i blk ss xs ts ys Hss Hxs (entry t) (He t) (a_lines au) nl fid rest) with (names := names) (P := P ++ Lab (LSym f) :: prologue nl).
    + apply find_unique with (p := P ++ Lab (LSym f) :: prologue nl ++ b); [exact Nf| |exact Logic.I]. rewrite Fi2. rewrite <- !app_assoc. cbn [app]. rewrite <- !app_assoc. reflexivity.
    + exact Nf.
    + exists (P ++ Lab (LSym f) :: prologue nl ++ b ++ epilogue fid nl), ([Lab (LHigh fid)] ++ R). rewrite Fi2. unfold rest, outs. rewrite <- !app_assoc. cbn [app]. rewrite <- !app_assoc. reflexivity.
    + intros pc ops cd nt tg d N. inversion Gc as [? Fl _]; subst. destruct (Fl _ _ _ N) as [_ [So _]]. exact (proj1 (So _ _ _ _ eq_refl)).
    + intros pc ops i0 q N Iq. inversion Gc as [? Fl _]; subst. destruct (Fl _ _ _ N) as [Fw _]. destruct (Fw _ Iq) as [L1 [ops' [i' [N' _]]]]. split; auto. apply nth_error_Some. congruence.
    + intros pc ops d off c' sc g N Sg. inversion Gc as [? Fl _]; subst. destruct (Fl _ _ _ N) as [_ [_ Ns]]. specialize (Ns _ _ _ _ eq_refl). split; auto.
      exists names, m, au. repeat (split; [solve [auto]|]). split; auto.
      eapply collect_trans; [apply le_n|exact Ic|]. eapply collect_in; [eapply nth_error_In; exact N|apply collect_self].
    + constructor; [exact Em|]. rewrite Fi2. rewrite <- !app_assoc. reflexivity.
    + exact I0.
    + exact St.
    + unfold pot. cbn [skipn]. fold outs. lia.
  - destruct P as [-> Mc]. cbn [asm_run]. unfold interpret.
    apply (main_sim (same_fun_a aus) callM callG Hc blk ss xs ts ys Hss Hxs (code_instrs c) Mc _ 0); auto. apply same_blank.
Qed.

(** Calls of the same functions on the same arguments do the same. *)
Theorem asm_calls : forall entry aus n, (forall s, entry s mod 16 = 0)%Z -> same_call (same_fun_a aus) (icall n) (acall entry aus n).
Proof.
  intros entry aus n He. apply (same_calls code cpay (same_fun_a aus) interpret (asm_run entry aus)).
  intros call1 call2 Hc b c k ss ts xs ys s t P Hss Hxs St. apply asm_run_sim; auto.
Qed.

(** ** Linking *)

(** There is an assembly file for module [h], made from code the generator accepts. *)
Definition available_a (aus : list aunit) (h : gmodule) : Prop :=
  exists names t, In t aus /\ asm_generate names (g_module h) = Some t /\
    gen_ok (c_code (g_module h)) /\ NoDup (map code_block (collect (c_code (g_module h)))).

Inductive mirror_a (aus : list aunit) : gmodule -> cgm -> Prop :=
| MirA : forall h i t ds names, nth_error aus i = Some t -> asm_generate names (g_module h) = Some t ->
    gen_ok (c_code (g_module h)) -> NoDup (map code_block (collect (c_code (g_module h)))) ->
    Forall2 (mirror_a aus) (g_deps h) ds -> mirror_a aus h (CG i (data_of t) ds).

Lemma image_mirror_a : forall aus, NoDup (map a_label aus) -> forall k g l, gsize g <= k -> (forall h, reaches g h -> available_a aus h) ->
  label_for_path (g_path g) = Some l -> exists img, c_image k (map data_of aus) l = Some img /\ mirror_a aus g img.
Proof.
  intros aus Nd. assert (Nd' : NoDup (map t_label (map data_of aus))) by (rewrite map_map; exact Nd).
  induction k as [|k IH]; intros g l Sz Av El; [destruct g; cbn in Sz; lia|].
  destruct (Av g (re_self g)) as [names [t [It [Gt [Gok Nb]]]]]. pose proof (asm_parts _ _ _ Gt) as P.
  pose proof (ap_label _ _ _ P) as Pl. rewrite g_module_path in Pl. rewrite El in Pl. injection Pl as ->.
  destruct (find_tu_spec (map data_of aus) (data_of t) 0 Nd') as [i [Ef Ei]]; [apply in_map; auto|]. cbn [c_image].
  change (t_label (data_of t)) with (a_label t) in Ef. rewrite Ef. cbn [plus].
  assert (Ni : nth_error aus i = Some t).
  { rewrite nth_error_map in Ei. destruct (nth_error aus i) as [t'|] eqn:Nt; [|discriminate]. injection Ei as Ei _ _ _.
    f_equal. destruct (In_nth_error _ _ It) as [j Nj].
    assert (i = j).
    { apply (proj1 (NoDup_nth_error (map a_label aus)) Nd); [rewrite map_length; apply nth_error_Some; congruence|]. rewrite !nth_error_map, Nt, Nj. cbn. congruence. }
    congruence. }
  pose proof (ap_deps _ _ _ P) as Pd. rewrite g_module_deps in Pd.
  assert (D : exists ds, all_some (map (c_image k (map data_of aus)) (a_deps t)) = Some ds /\ Forall2 (mirror_a aus) (g_deps g) ds).
  { assert (Sub : forall d, In d (g_deps g) -> gsize d <= k /\ forall h, reaches d h -> available_a aus h).
    { intros d Id. pose proof (gsize_dep g d Id). split; [lia|]. intros h R. apply Av. eapply re_dep; eauto. }
    revert Pd Sub. generalize (g_deps g) as deps, (a_deps t) as ls. induction deps as [|d deps IHd]; intros ls Pd Sub; cbn [map] in Pd.
    - inversion Pd; subst. exists []. cbn. auto.
    - inversion Pd as [|? x ? ls' Ex Pd']; subst. destruct (Sub d (or_introl eq_refl)) as [Sd Ad].
      destruct (IH d x Sd Ad Ex) as [img [E1 M1]]. destruct (IHd ls' Pd' (fun d' I => Sub d' (or_intror I))) as [ds [E2 M2]].
      exists (img :: ds). cbn [map all_some]. rewrite E1, E2. auto. }
  destruct D as [ds [Ed Md]]. change (t_deps (data_of t)) with (a_deps t). rewrite Ed. eexists. split; [reflexivity|]. econstructor; eauto.
Qed.

Lemma mirror_path_a : forall aus g img, mirror_a aus g img -> cg_path img = g_path g.
Proof. intros aus g img M. destruct M as [h i t ds names N G _ _ _]. cbn [cg_path data_of t_path]. rewrite (ap_path _ _ _ (asm_parts _ _ _ G)). apply g_module_path. Qed.

Lemma load_mirror_a : forall aus g img, mirror_a aus g img -> forall l l', Forall2 (mirror_a aus) l l' ->
  Forall2 (mirror_a aus) (load_generated l g) (c_load l' img).
Proof.
  intros aus g. induction g as [p deps c b IH] using gmodule_ind'. intros img M l l' F.
  rewrite load_generated_eq, c_load_eq, (mirror_path_a _ _ _ M).
  assert (E : existsb (fun m => path_eqb (g_path m) (g_path (GModule p deps c b))) l = existsb (fun m => path_eqb (cg_path m) (g_path (GModule p deps c b))) l').
  { clear M IH. induction F as [|x y l l' H F IHF]; cbn [existsb]; auto. rewrite (mirror_path_a _ _ _ H), IHF. reflexivity. }
  rewrite <- E. destruct (existsb _ l); auto.
  apply Forall2_app; [|constructor; auto]. inversion M as [h i t ds names N G Go Nb Fd Eh]; subst. cbn [g_deps cg_deps] in *. clear -IH Fd F.
  revert l l' F. induction Fd as [|d d' deps ds Hd Fd IHd]; intros l l' F; cbn [load_all fold_left]; auto.
  inversion IH as [|? ? H1 H2]; subst. apply IHd; auto.
Qed.

Lemma mirror_link_a : forall aus main_id blk g img f, mirror_a aus g img -> (forall h, reaches g h -> c_block (g_module h) = blk (g_path h)) ->
  (forall h, In h (load_generated [] g) -> reaches g h) ->
  link_generated main_id g = Some f -> exists f', c_link main_id blk img = Some f' /\ same_val (same_fun_a aus) f f'.
Proof.
  intros aus main_id blk g img f M Hb Hr E. unfold link_generated in E. cbv zeta in E. unfold c_link. cbv zeta.
  pose proof (load_mirror_a aus g img M [] [] (Forall2_nil _)) as F. revert Hr E F. generalize (load_generated [] g) as gs, (c_load [] img) as cs. intros gs cs Hr E F.
  assert (Ea : forallb (fun g => (x_statics (t_exe (let 'CG _ t _ := g in t)) =? 0) && (length (cg_deps g) =? x_args (t_exe (let 'CG _ t _ := g in t)))) cs =
               forallb (fun g => (code_num_statics (c_code (g_module g)) =? 0) && (length (g_deps g) =? code_num_args (c_code (g_module g)))) gs).
  { clear -F. induction F as [|x y gs cs H F IH]; cbn [forallb]; auto. rewrite IH. f_equal. destruct H as [h i t ds names N G _ _ Fd]. cbn [cg_deps data_of t_exe].
    pose proof (asm_parts _ _ _ G) as P. rewrite (ap_statics _ _ _ P), (ap_args _ _ _ P), (F2_len _ _ _ Fd). reflexivity. }
  rewrite Ea. destruct (forallb _ gs); [|discriminate].
  assert (El : link_code main_id (map (fun g => mk_cmodule (cg_path g) (map cg_path (cg_deps g)) (Code 0 0 0 0 []) 0) cs) = link_code main_id (map g_module gs)).
  { apply link_code_ext; rewrite !map_map; clear -F; induction F as [|x y gs cs H F IH]; cbn [map]; auto; f_equal; auto; cbn [c_path c_deps].
    - rewrite (mirror_path_a _ _ _ H), g_module_path. reflexivity.
    - rewrite g_module_deps. destruct H as [h i t ds names N G _ _ Fd]. cbn [cg_deps]. clear -Fd. induction Fd as [|a b l l' Ha Fd IHd]; cbn [map]; auto. rewrite IHd, (mirror_path_a _ _ _ Ha). reflexivity. }
  rewrite El. destruct (link_code main_id (map g_module gs)) as [c|] eqn:Ec; [|discriminate]. injection E as <-.
  eexists. split; [reflexivity|]. constructor.
  - cbn. split; auto. eapply link_main; eauto.
  - clear -F Hr Hb. induction F as [|x y gs cs H F IH]; cbn [map]; constructor; auto.
    + specialize (Hb x (Hr x (or_introl eq_refl))). destruct H as [h i t ds names N G Go Nb _]. unfold module_func, cg_func. pose proof (asm_parts _ _ _ G) as P. cbn [data_of t_exe t_path].
      rewrite <- (ap_args _ _ _ P), Hb, (ap_path _ _ _ P), g_module_path. constructor; [|constructor].
      exists names, (g_module h), t. repeat (split; [solve [auto]|]). split; [apply collect_self|]. apply (ap_run _ _ _ P).
    + apply IH. intros h I. apply Hr. right. auto.
Qed.

(** ** The theorem *)

(** Module [h] is the compilation of a well scoped expression with one argument for each
    dependency, generating assembly for it (with the names of its profile blocks) succeeds,
    and the result is one of the assembly files [aus] of the program. *)
Definition assembled_to (aus : list aunit) (h : gmodule) : Prop :=
  exists e nblocks names t, wf 0 (length (g_deps h)) [] e = true /\
    compile_code (length (g_deps h)) e = Some (c_code (g_module h), nblocks) /\
    asm_generate names (g_module h) = Some t /\ In t aus.

(** A program of modules compiled through assembly, linked and started by the runtime: the
    linker finds every module, and calling the program, wherever the stack is (at a multiple
    of 16, as the ABI requires), is observably the same as calling the program the interpreter
    runs, unless that one does what is undefined. *)
Theorem asm_program_same : forall main_id blk g aus, one_module_per_path g -> paths_ok g -> NoDup (map a_label aus) ->
  (forall h, reaches g h -> assembled_to aus h /\ c_block (g_module h) = blk (g_path h)) ->
  exists label img f f',
    label_for_path (g_path g) = Some label /\ c_image (gsize g) (map data_of aus) label = Some img /\
    link_generated main_id g = Some f /\ c_link main_id blk img = Some f' /\
    same_val (same_fun_a aus) f f' /\
    forall entry n, (forall s, entry s mod 16 = 0)%Z ->
      same_call (same_fun_a aus) (icall n) (acall entry aus n) /\
      let r := icall n (mk_st [] 0 []) f [] in
      fst r = Crash \/ observe r = observe (acall entry aus n (mk_st [] 0 []) f' []).
Proof.
  intros main_id blk g aus One Pok Nd Ok.
  assert (Av : forall h, reaches g h -> available_a aus h).
  { intros h R. destruct (Ok h R) as [[e [nb [names [t [W [E [G I]]]]]]] _]. destruct (compiled_gen_ok _ _ _ _ W E) as [Go [Nb _]]. exists names, t. auto. }
  destruct (Av g (re_self g)) as [names [t [It [Gt _]]]]. pose proof (ap_label _ _ _ (asm_parts _ _ _ Gt)) as Pl. rewrite g_module_path in Pl.
  destruct (image_mirror_a aus Nd (gsize g) g _ (le_n _) Av Pl) as [img [Ei M]].
  destruct (generated_program_runs main_id g One Pok) as [c [Ef [_ _]]].
  { intros h R. destruct (Ok h R) as [[e [nb [nm [u [W [E [G I]]]]]]] _]. destruct (compile_code_arity _ _ _ _ E) as [A B]. split; auto. }
  destruct (generated_modules_in_order g One Pok) as [_ [_ [In_ _]]].
  destruct (mirror_link_a aus main_id blk g img _ M (fun h R => proj2 (Ok h R)) (fun h I => proj1 (In_ h) I) Ef) as [f' [El V]].
  exists (a_label t), img. eexists. exists f'. split; auto. split; auto. split; [exact Ef|]. split; auto. split; auto.
  intros entry n He. split; [apply asm_calls; auto|].
  intros r. apply (same_observed _ _ (same_fun_a aus)). apply asm_calls; auto. split; [constructor|]. split; reflexivity.
Qed.
