(** * C48: modules compiled through generated C behave like interpreted ones. *)
From Coq Require Import ZArith List Arith Lia Bool.
From Verif Require Import PathModel PathProps LoadModel FuncModel CodeModel CodeProps CompileModel CompileEval CompileRel CompileCalls CompileStatic LinkModel LinkProps GenModel GenLabel GenCode FuncSim GenRun GenProg.
Import ListNotations.

(** ** What can be observed *)

(** A value, but for what its functions execute. *)
Inductive shape :=
| HStruct (fields : list shape) | HUnion (tag : nat) (arg : shape) | HFunc (num_args block : nat) (statics : list shape)
| HPapp (num_args block : nat) (f : shape) (args : list shape) | HRef (l : nat) | HType.
Fixpoint shape_of {B} (v : val B) : shape :=
  match v with
  | VStruct xs => HStruct (map shape_of xs)
  | VUnion t x => HUnion t (shape_of x)
  | VFunc n _ k xs => HFunc n k (map shape_of xs)
  | VPapp n k f xs => HPapp n k (shape_of f) (map shape_of xs)
  | VRef l => HRef l
  | VType => HType
  end.

(** How a call ended, with the values of all references, the frames in use and the profile. *)
Inductive observed := ORet (v : shape) | OTail (f : shape) (args : list shape) | OAbort | OCrash | OTimeout.
Definition observe {B} (r : res B) : observed * list (option shape) * nat * list prof_event :=
  (match fst r with
   | Ret v => ORet (shape_of v) | Tail f xs => OTail (shape_of f) (map shape_of xs)
   | Abort => OAbort | Crash => OCrash | Timeout => OTimeout end,
   map (option_map shape_of) (refs (snd r)), depth (snd r), prof (snd r)).

Lemma same_shape : forall B1 B2 (prel : nat -> nat -> B1 -> B2 -> Prop) v w, same_val prel v w -> shape_of v = shape_of w.
Proof.
  intros B1 B2 prel. fix IH 3. intros v w H.
  assert (M : forall xs ys, Forall2 (same_val prel) xs ys -> map shape_of xs = map shape_of ys).
  { fix IHs 3. intros xs ys F. destruct F as [|x y xs ys H1 F]; cbn; [reflexivity|]. rewrite (IH _ _ H1), (IHs _ _ F). reflexivity. }
  destruct H; cbn; [rewrite (M xs ys)|rewrite (IH x y)|rewrite (M xs ys)|rewrite (IH f g), (M xs ys)| |]; auto.
Qed.
Lemma same_shapes : forall B1 B2 (prel : nat -> nat -> B1 -> B2 -> Prop) xs ys, Forall2 (same_val prel) xs ys -> map shape_of xs = map shape_of ys.
Proof. induction 1 as [|x y xs ys H F IH]; cbn; auto. rewrite (same_shape _ _ _ _ _ H), IH. reflexivity. Qed.

Lemma same_observed : forall B1 B2 (prel : nat -> nat -> B1 -> B2 -> Prop) r q, same_res prel r q -> fst r = Crash \/ observe r = observe q.
Proof.
  intros B1 B2 prel [o s] [o' t] [H|[O [R [D P]]]]; [left; auto|right]. cbn [fst snd] in *. unfold observe. cbn [fst snd]. rewrite D, P. f_equal. f_equal. f_equal.
  - destruct O; cbn; auto.
    + rewrite (same_shape _ _ _ _ _ H). auto.
    + rewrite (same_shape _ _ _ _ _ H), (same_shapes _ _ _ _ _ H0). auto.
  - induction R as [|x y r r' H F IH]; cbn; auto. f_equal; auto. destruct x, y; cbn in *; try contradiction; auto. f_equal. eapply same_shape; eauto.
Qed.

(** ** Linking *)

(** The C files have one for module [h], made from code the generator accepts. *)
Definition available (tus : list tunit) (h : gmodule) : Prop :=
  exists names t, In t tus /\ generate names (g_module h) = Some t /\
    gen_ok (c_code (g_module h)) /\ NoDup (map code_block (collect (c_code (g_module h)))).

Inductive mirror (tus : list tunit) : gmodule -> cgm -> Prop :=
| Mir : forall h i t ds names, nth_error tus i = Some t -> generate names (g_module h) = Some t ->
    gen_ok (c_code (g_module h)) -> NoDup (map code_block (collect (c_code (g_module h)))) ->
    Forall2 (mirror tus) (g_deps h) ds -> mirror tus h (CG i t ds).

Lemma find_tu_spec : forall tus t j, NoDup (map t_label tus) -> In t tus ->
  exists i, find_tu (t_label t) tus j = Some (j + i, t) /\ nth_error tus i = Some t.
Proof.
  induction tus as [|x tus IH]; intros t j Nd I; [destruct I|]. cbn [map] in Nd. inversion Nd as [|? ? Ni Nd']; subst. cbn [find_tu].
  destruct I as [->|I].
  - destruct (list_eq_dec Z.eq_dec (t_label t) (t_label t)); [|congruence]. exists 0. rewrite Nat.add_0_r. auto.
  - destruct (list_eq_dec Z.eq_dec (t_label t) (t_label x)) as [E|Ne].
    + exfalso. apply Ni. rewrite <- E. apply in_map. auto.
    + destruct (IH t (S j) Nd' I) as [i [E1 E2]]. exists (S i). split; auto. rewrite E1. f_equal. f_equal. lia.
Qed.

Lemma g_module_path : forall h, c_path (g_module h) = g_path h.
Proof. intros []. reflexivity. Qed.
Lemma g_module_deps : forall h, c_deps (g_module h) = map g_path (g_deps h).
Proof. intros []. reflexivity. Qed.

Lemma image_mirror : forall tus, NoDup (map t_label tus) -> forall k g l, gsize g <= k -> (forall h, reaches g h -> available tus h) ->
  label_for_path (g_path g) = Some l -> exists img, c_image k tus l = Some img /\ mirror tus g img.
Proof.
  intros tus Nd. induction k as [|k IH]; intros g l Sz Av El; [destruct g; cbn in Sz; lia|].
  destruct (Av g (re_self g)) as [names [t [It [Gt [Gok Nb]]]]]. pose proof (generate_parts _ _ _ Gt) as P.
  pose proof (p_label _ _ _ P) as Pl. rewrite g_module_path in Pl. rewrite El in Pl. injection Pl as ->.
  destruct (find_tu_spec tus t 0 Nd It) as [i [Ef Ei]]. cbn [c_image]. rewrite Ef. cbn [plus].
  pose proof (p_deps _ _ _ P) as Pd. rewrite g_module_deps in Pd.
  assert (D : exists ds, all_some (map (c_image k tus) (t_deps t)) = Some ds /\ Forall2 (mirror tus) (g_deps g) ds).
  { assert (Sub : forall d, In d (g_deps g) -> gsize d <= k /\ forall h, reaches d h -> available tus h).
    { intros d Id. pose proof (gsize_dep g d Id). split; [lia|]. intros h R. apply Av. eapply re_dep; eauto. }
    revert Pd Sub. generalize (g_deps g) as deps, (t_deps t) as ls. induction deps as [|d deps IHd]; intros ls Pd Sub; cbn [map] in Pd.
    - inversion Pd; subst. exists []. cbn. auto.
    - inversion Pd as [|? x ? ls' Ex Pd']; subst. destruct (Sub d (or_introl eq_refl)) as [Sd Ad].
      destruct (IH d x Sd Ad Ex) as [img [E1 M1]]. destruct (IHd ls' Pd' (fun d' I => Sub d' (or_intror I))) as [ds [E2 M2]].
      exists (img :: ds). cbn [map all_some]. rewrite E1, E2. auto. }
  destruct D as [ds [Ed Md]]. rewrite Ed. eexists. split; [reflexivity|]. econstructor; eauto.
Qed.

Lemma mirror_path : forall tus g img, mirror tus g img -> cg_path img = g_path g.
Proof. intros tus g img M. destruct M as [h i t ds names N G _ _ _]. cbn [cg_path]. rewrite (p_path _ _ _ (generate_parts _ _ _ G)). apply g_module_path. Qed.

Lemma c_load_eq : forall loaded g, c_load loaded g =
  if existsb (fun m => path_eqb (cg_path m) (cg_path g)) loaded then loaded else fold_left c_load (cg_deps g) loaded ++ [g].
Proof.
  intros loaded [i t deps]. cbn [c_load cg_deps]. destruct (existsb _ loaded); auto. f_equal. revert loaded. induction deps as [|d deps IH]; intros loaded; cbn; auto.
Qed.

Lemma load_mirror : forall tus g img, mirror tus g img -> forall l l', Forall2 (mirror tus) l l' ->
  Forall2 (mirror tus) (load_generated l g) (c_load l' img).
Proof.
  intros tus g. induction g as [p deps c b IH] using gmodule_ind'. intros img M l l' F.
  rewrite load_generated_eq, c_load_eq, (mirror_path _ _ _ M).
  assert (E : existsb (fun m => path_eqb (g_path m) (g_path (GModule p deps c b))) l = existsb (fun m => path_eqb (cg_path m) (g_path (GModule p deps c b))) l').
  { clear M IH. induction F as [|x y l l' H F IHF]; cbn [existsb]; auto. rewrite (mirror_path _ _ _ H), IHF. reflexivity. }
  rewrite <- E. destruct (existsb _ l); auto.
  apply Forall2_app; [|constructor; auto]. inversion M as [h i t ds names N G Go Nb Fd Eh]; subst. cbn [g_deps cg_deps] in *. clear -IH Fd F.
  revert l l' F. induction Fd as [|d d' deps ds Hd Fd IHd]; intros l l' F; cbn [load_all fold_left]; auto.
  inversion IH as [|? ? H1 H2]; subst. apply IHd; auto.
Qed.

Lemma find_module_ext : forall d ms ms' v, map c_path ms = map c_path ms' -> find_module d ms v = find_module d ms' v.
Proof. intros d. induction ms as [|m ms IH]; intros [|m' ms'] v E; cbn in *; try discriminate; auto. injection E as E1 E2. rewrite E1. destruct (path_eqb _ _); auto. Qed.
Lemma link_args_ext : forall deps ms ms', map c_path ms = map c_path ms' -> link_args deps ms = link_args deps ms'.
Proof. induction deps as [|d deps IH]; intros ms ms' E; cbn; auto. rewrite (find_module_ext d ms ms' 0 E), (IH ms ms' E). reflexivity. Qed.
Lemma link_calls_ext : forall ms ms' b b', map c_path ms = map c_path ms' -> map c_deps ms = map c_deps ms' -> map c_path b = map c_path b' ->
  link_calls b ms = link_calls b' ms'.
Proof.
  induction ms as [|m ms IH]; intros [|m' ms'] b b' E1 E2 E3; cbn [map] in *; try discriminate; auto. injection E1 as P1 P2. injection E2 as D1 D2.
  cbn [link_calls]. cbv zeta. rewrite D1, (link_args_ext _ _ _ E3), (IH ms' (b ++ [m]) (b' ++ [m'])); auto.
  - replace (length b) with (length b') by (rewrite <- (map_length c_path b), <- (map_length c_path b'), E3; auto). reflexivity.
  - rewrite !map_app, E3. cbn. rewrite P1. reflexivity.
Qed.
Lemma link_code_ext : forall id ms ms', map c_path ms = map c_path ms' -> map c_deps ms = map c_deps ms' -> link_code id ms = link_code id ms'.
Proof.
  intros id ms ms' E1 E2. unfold link_code. rewrite (link_calls_ext ms ms' [] []) by auto.
  replace (length ms) with (length ms') by (rewrite <- (map_length c_path ms), <- (map_length c_path ms'), E1; auto). reflexivity.
Qed.

Lemma link_main : forall id ms c, link_code id ms = Some c -> main_code c.
Proof.
  intros id ms c E. unfold link_code in E. destruct (link_calls [] ms) as [l|] eqn:L; [|discriminate]. injection E as <-. unfold main_code. cbn [code_instrs].
  apply Forall_app. split; [|repeat constructor]. revert L. generalize (@nil cmodule) as b. revert l. induction ms as [|m ms IH]; intros l b L; cbn [link_calls] in L.
  - injection L as <-. constructor.
  - cbv zeta in L. destruct (_ =? _); [|discriminate]. destruct (link_calls _ ms) as [l'|] eqn:L'; [|discriminate]. injection L as <-. constructor; [cbn; auto|]. eapply IH; eauto.
Qed.

Lemma mirror_link : forall tus main_id blk g img f, mirror tus g img -> (forall h, reaches g h -> c_block (g_module h) = blk (g_path h)) ->
  (forall h, In h (load_generated [] g) -> reaches g h) ->
  link_generated main_id g = Some f -> exists f', c_link main_id blk img = Some f' /\ same_val (same_fun tus) f f'.
Proof.
  intros tus main_id blk g img f M Hb Hr E. unfold link_generated in E. cbv zeta in E. unfold c_link. cbv zeta.
  pose proof (load_mirror tus g img M [] [] (Forall2_nil _)) as F. revert Hr E F. generalize (load_generated [] g) as gs, (c_load [] img) as cs. intros gs cs Hr E F.
  assert (Ea : forallb (fun g => (x_statics (t_exe (let 'CG _ t _ := g in t)) =? 0) && (length (cg_deps g) =? x_args (t_exe (let 'CG _ t _ := g in t)))) cs =
               forallb (fun g => (code_num_statics (c_code (g_module g)) =? 0) && (length (g_deps g) =? code_num_args (c_code (g_module g)))) gs).
  { clear -F. induction F as [|x y gs cs H F IH]; cbn [forallb]; auto. rewrite IH. f_equal. destruct H as [h i t ds names N G _ _ Fd]. cbn [cg_deps].
    pose proof (generate_parts _ _ _ G) as P. rewrite (p_statics _ _ _ P), (p_args _ _ _ P), (F2_len _ _ _ Fd). reflexivity. }
  rewrite Ea. destruct (forallb _ gs); [|discriminate].
  assert (El : link_code main_id (map (fun g => mk_cmodule (cg_path g) (map cg_path (cg_deps g)) (Code 0 0 0 0 []) 0) cs) = link_code main_id (map g_module gs)).
  { apply link_code_ext; rewrite !map_map; clear -F; induction F as [|x y gs cs H F IH]; cbn [map]; auto; f_equal; auto; cbn [c_path c_deps].
    - rewrite (mirror_path _ _ _ H), g_module_path. reflexivity.
    - rewrite g_module_deps. destruct H as [h i t ds names N G _ _ Fd]. cbn [cg_deps]. clear -Fd. induction Fd as [|a b l l' Ha Fd IHd]; cbn [map]; auto. rewrite IHd, (mirror_path _ _ _ Ha). reflexivity. }
  rewrite El. destruct (link_code main_id (map g_module gs)) as [c|] eqn:Ec; [|discriminate]. injection E as <-.
  eexists. split; [reflexivity|]. constructor.
  - cbn. split; auto. eapply link_main; eauto.
  - clear -F Hr Hb. induction F as [|x y gs cs H F IH]; cbn [map]; constructor; auto.
    + specialize (Hb x (Hr x (or_introl eq_refl))). destruct H as [h i t ds names N G Go Nb _]. unfold module_func, cg_func. pose proof (generate_parts _ _ _ G) as P.
      rewrite <- (p_args _ _ _ P), Hb, (p_path _ _ _ P), g_module_path. constructor; [|constructor].
      exists names, (g_module h), t. repeat (split; [solve [auto]|]). split; [apply collect_self|]. apply (p_run _ _ _ P).
    + apply IH. intros h I. apply Hr. right. auto.
Qed.

(** ** The theorem *)

(** Module [h] is the compilation of a well scoped expression with one argument for each
    dependency, generating C for it (with the names of its profile blocks) succeeds, and the
    result is one of the C files [tus] of the program. *)
Definition compiled_to (tus : list tunit) (h : gmodule) : Prop :=
  exists e nblocks names t, wf 0 (length (g_deps h)) [] e = true /\
    compile_code (length (g_deps h)) e = Some (c_code (g_module h), nblocks) /\
    generate names (g_module h) = Some t /\ In t tus.

Lemma compile_code_arity : forall nargs e c nblocks, compile_code nargs e = Some (c, nblocks) -> code_num_args c = nargs /\ code_num_statics c = 0.
Proof.
  intros nargs e c nblocks E. unfold compile_code in E. cbv zeta in E.
  destruct (compile (size e) true e (init_scope nargs 0 0 [0] 1)) as [[r s]|]; [|discriminate].
  destruct (exit_block true s) as [s1|]; [|discriminate]. destruct (free_scope s1) as [s2|]; [|discriminate].
  destruct (bstack s2); [|discriminate]. injection E as <- <-. split; reflexivity.
Qed.

(** A program of modules compiled through C, linked by the C linker and started by the
    runtime: the linker finds every module, and calling the program is observably the same as
    calling the program the interpreter runs, unless that one does what is undefined
    (which accepted programs do not, C46 and C47).  The functions are the same for the host
    too: calls on same values in same states do the same. *)
Theorem generated_program_same : forall main_id blk g tus, one_module_per_path g -> paths_ok g -> NoDup (map t_label tus) ->
  (forall h, reaches g h -> compiled_to tus h /\ c_block (g_module h) = blk (g_path h)) ->
  exists label img f f',
    label_for_path (g_path g) = Some label /\ c_image (gsize g) tus label = Some img /\
    link_generated main_id g = Some f /\ c_link main_id blk img = Some f' /\
    same_val (same_fun tus) f f' /\ (forall n, same_call (same_fun tus) (icall n) (gcall tus n)) /\
    forall n, let r := icall n (mk_st [] 0 []) f [] in
      fst r = Crash \/ observe r = observe (gcall tus n (mk_st [] 0 []) f' []).
Proof.
  intros main_id blk g tus One Pok Nd Ok.
  assert (Av : forall h, reaches g h -> available tus h).
  { intros h R. destruct (Ok h R) as [[e [nb [names [t [W [E [G I]]]]]]] _]. destruct (compiled_gen_ok _ _ _ _ W E) as [Go [Nb _]]. exists names, t. auto. }
  destruct (Av g (re_self g)) as [names [t [It [Gt _]]]]. pose proof (p_label _ _ _ (generate_parts _ _ _ Gt)) as Pl. rewrite g_module_path in Pl.
  destruct (image_mirror tus Nd (gsize g) g _ (le_n _) Av Pl) as [img [Ei M]].
  destruct (generated_program_runs main_id g One Pok) as [c [Ef [_ _]]].
  { intros h R. destruct (Ok h R) as [[e [nb [nm [u [W [E [G I]]]]]]] _]. destruct (compile_code_arity _ _ _ _ E) as [A B]. split; auto. }
  destruct (generated_modules_in_order g One Pok) as [_ [_ [In_ _]]].
  destruct (mirror_link tus main_id blk g img _ M (fun h R => proj2 (Ok h R)) (fun h I => proj1 (In_ h) I) Ef) as [f' [El V]].
  exists (t_label t), img. eexists. exists f'. split; auto. split; auto. split; [exact Ef|]. split; auto. split; auto. split; [apply generated_calls|].
  intros n r. apply (same_observed _ _ (same_fun tus)). apply generated_calls; auto. split; [constructor|]. split; reflexivity.
Qed.
