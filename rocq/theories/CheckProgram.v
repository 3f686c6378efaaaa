(** * Type safety of programs (C47). *)
From Coq Require Import String Ascii List Arith Bool ZArith Lia.
From Verif Require PathProps FuncProps CompileModel CompileStatic CompileEval CompileRel CompileCalls CheckProps.
From Verif Require Import PathModel FuncModel CodeModel LinkModel LinkProps.
From Verif Require Import KindModel UnusedModel TypeModel TypeSpec TypeProps CheckModel CheckScope CheckScoped CheckTyping CheckSafe CheckRun CheckGrow
  CheckOps CheckLet CheckSpec CheckSafeSpec CheckTyped CheckSound.
Import ListNotations.
Local Open Scope list_scope.
Local Notation tc := CompileModel.tc.
Local Notation vrel := CompileRel.vrel.
Local Notation srel := CompileRel.srel.

(** ** Shapes *)
Section store.
  Variable st : store.
  Hypothesis Si : simple st.

  Lemma whnf_shape t m d : whnf st t m -> shape st m d -> shape st t d.
  Proof.
    intros W S. induction W as [| | | | | |n k x v m E W IH|n x b m E|n x b m f E|n f x E]; auto.
    - eapply shape_name; eauto.
    - destruct (s_poly _ Si _ _ _ E).
  Qed.
  Lemma peel_shape t h d : peel st t h -> shape st h d -> shape st t d.
  Proof. intros P S. induction P; [|eapply whnf_shape; eauto; eapply shape_abstract; eauto]. eapply whnf_shape; eauto. Qed.
  Lemma shape_peel t d : shape st t d -> exists h, peel st t h /\ get st h = Some d.
  Proof.
    intros S. induction S as [t u fs E|t x r E|t u E|t k x v d E S (h & P & Eh)|t p u d E S (h & P & Eh)].
    - exists t. split; auto. apply peel_here; [eapply whnf_data; eauto|congruence].
    - exists t. split; auto. apply peel_here; [eapply whnf_func; eauto|congruence].
    - exists t. split; auto. apply peel_here; [eapply whnf_type; eauto|congruence].
    - exists h. split; auto. inversion P as [? ? W N|? m p u ? W E' P']; subst.
      + apply peel_here; auto. eapply whnf_var; eauto.
      + eapply peel_under; eauto. eapply whnf_var; eauto.
    - exists h. split; auto. eapply peel_under; eauto. eapply whnf_abstract; eauto.
  Qed.
  Lemma data_shape u fs t : is_data st u fs t -> shape st t (TData u fs).
  Proof. intros (h & P & E). eapply peel_shape; eauto. constructor; auto. Qed.
  Lemma func_shape x r t : is_func st x r t -> shape st t (TFunc x r).
  Proof. intros (h & P & E). eapply peel_shape; eauto. constructor; auto. Qed.
  Lemma type_shape t : is_type st t -> exists u, shape st t (TType u).
  Proof. intros (h & u & P & E). exists u. eapply peel_shape; eauto. constructor; auto. Qed.
  Lemma shape_data_is u fs t : shape st t (TData u fs) -> is_data st u fs t.
  Proof. intros S. apply shape_peel in S. exact S. Qed.

  (** ** Plain data *)
  Fixpoint plain_typed v t (P : plain_data st v t) {struct P} : exists v', vrel v v' /\ forall Sg, vty st Sg v' t.
  Proof.
    destruct P as [t fs vs Sh F|t fs tag x u a Sh E P].
    - assert (exists ws, Forall2 vrel vs ws /\ forall Sg, all2 (vty st Sg) ws (map snd fs)) as (ws & R & T).
      { clear Sh. induction F as [|v u vs us P F (ws & R & T)]; [exists []; cbn; auto|].
        destruct (plain_typed _ _ P) as (w & Rw & Tw). exists (w :: ws). split; auto. intros Sg. cbn. auto. }
      exists (VStruct ws). split; [constructor; auto|]. intros Sg. cbn. exists fs. split; auto using shape_data_is.
    - destruct (plain_typed _ _ P) as (w & Rw & Tw). exists (VUnion tag w). split; [constructor; auto|].
      intros Sg. cbn. exists fs, x, u. auto using shape_data_is.
  Qed.

  (** ** Behaviour *)
  Definition vok (s : cst) (v : cval) (t : nat) : Prop := exists t' Sg v', srel s t' /\ st_ok st Sg (refs t') /\ vrel v v' /\ vty st Sg v' t.
  Lemma vok_behaves : forall k s v t, vok s v t -> behaves st k s v t.
  Proof.
    induction k as [|k IH]; intros s v t (t' & Sg & v' & R & K & V & T); cbn [behaves]; auto.
    pose proof (CompileRel.strict_value_rel _ _ _ _ R V) as SR. pose proof (strict_typed st Si _ _ _ _ K T) as ST.
    destruct SR as [a b Vab NR| |]; try contradiction; auto. destruct ST as [Tb Nb].
    destruct Vab as [xs ys F|tag x y Vx|n c b k0 k' xs ys C En Ls F|n k0 k' f g xs ys Vf F|l|]; cbn [vty] in Tb.
    - destruct Tb as (fs & D & Tb). exists (TData false fs). split; [apply data_shape; auto|]. exists xs. split; auto.
      apply all2_F2 in Tb. clear D NR Nb. revert fs Tb. induction F as [|x y xs ys Vx F IHF]; intros [|[z w] fs] Tb; inversion Tb; subst; constructor.
      + apply IH. exists t', Sg, y. auto.
      + apply IHF. auto.
    - destruct Tb as (fs & z & u & D & E & Ty). exists (TData true fs). split; [apply data_shape; auto|]. exists tag, x, z, u. split; auto. split; auto.
      apply IH. exists t', Sg, y. auto.
    - destruct Tb as (us & As & Rt & A & La & Pa & _). destruct (arrow_func _ _ _ _ A) as (x & r & Fx); [lia|].
      exists (TFunc x r). split; [apply func_shape; auto|]. intros m d Pd. destruct (plain_typed _ _ Pd) as (d' & Vd & Td).
      destruct (calls_ok st Si m) as [Cm _]. assert (Ar : arrow st t [x] r) by (exists x, r; split; [exact Fx|split; apply conv_refl]).
      assert (Ok : okr st Sg (refs t') (depth t') false r (CompileEval.ecall m t' v' [d'])) by (eapply Cm; eauto; discriminate).
      assert (Rr : CompileRel.rrel (icall m s v [d]) (CompileEval.ecall m t' v' [d'])) by (apply CompileCalls.call_rel; auto).
      destruct (icall m s v [d]) as [o s1], (CompileEval.ecall m t' v' [d']) as [o' t1]. destruct Rr as [O Rs]. cbn [fst snd] in O, Rs.
      destruct Ok as [->|(Sg' & K' & G & L & Dp & H)]; [inversion O; auto|]. inversion O; subst; auto; try contradiction.
      + apply IH. exists t1, Sg', y. auto.
      + destruct H as [H _]; discriminate.
    - destruct Tb as (ft & As & Bs & Rt & _ & _ & _ & La & Pa & A). destruct (arrow_func _ _ _ _ A) as (x & r & Fx); [lia|].
      exists (TFunc x r). split; [apply func_shape; auto|]. intros m d Pd. destruct (plain_typed _ _ Pd) as (d' & Vd & Td).
      destruct (calls_ok st Si m) as [Cm _]. assert (Ar : arrow st t [x] r) by (exists x, r; split; [exact Fx|split; apply conv_refl]).
      assert (Ok : okr st Sg (refs t') (depth t') false r (CompileEval.ecall m t' v' [d'])) by (eapply Cm; eauto; discriminate).
      assert (Rr : CompileRel.rrel (icall m s v [d]) (CompileEval.ecall m t' v' [d'])) by (apply CompileCalls.call_rel; auto).
      destruct (icall m s v [d]) as [o s1], (CompileEval.ecall m t' v' [d']) as [o' t1]. destruct Rr as [O Rs]. cbn [fst snd] in O, Rs.
      destruct Ok as [->|(Sg' & K' & G & L & Dp & H)]; [inversion O; auto|]. inversion O; subst; auto; try contradiction.
      + apply IH. exists t1, Sg', y. auto.
      + destruct H as [H _]; discriminate.
    - destruct (NR l); auto.
    - destruct (type_shape _ Tb) as (u & Sh). exists (TType u). auto.
  Qed.

  (** A call of the function of a module. *)
  Lemma module_call_ok n e k blk args As t Sg s : typed st [] As [] e t -> Forall2 (vty st Sg) args As -> List.length args = k ->
    st_ok st Sg (refs s) -> okr st Sg (refs s) (depth s) false t (CompileEval.ecall n s (VFunc k e blk []) args).
  Proof.
    intros T Ta L K. apply (typed_tight _ _ Si) in T. destruct n as [|n]; [left; auto|]. unfold CompileEval.ecall. rewrite FuncProps.call_S.
    assert (E : strict_value (refs s) (VFunc k e blk []) = SVal (VFunc k e blk [])) by (unfold strict_value; destruct (List.length (refs s)); reflexivity).
    rewrite E. cbn [num_args_of]. rewrite L, Nat.ltb_irrefl. cbv zeta. rewrite <- L, skipn_all. cbn [run_fn]. rewrite firstn_all.
    set (s1 := FuncModel.push_frame (log _ s)). destruct (calls_ok st Si n) as [Cn Tn].
    assert (H : okr st Sg (refs s1) (depth s1) true t (CompileEval.ev_run (call CompileEval.ev_run n) e blk [] args s1)).
    { unfold CompileEval.ev_run. eapply ev_ok; eauto. split; [constructor|split; [auto|constructor]]. }
    cbn [refs depth s1 FuncModel.push_frame log] in H. destruct (CompileEval.ev_run (call CompileEval.ev_run n) e blk [] args s1) as [o s2].
    assert (Fin : forall x : res tc, okr st Sg (refs s) (depth s) false t x -> okr st Sg (refs s) (depth s) false t (let '(r', s3) := x in (r', log PExit s3))).
    { intros [o' s3]. auto. }
    apply Fin. destruct H as [->|(Sg2 & K2 & G2 & L2 & D2 & H)]; [left; auto|].
    destruct o; try contradiction.
    - eapply okr_from; [exact G2|apply later_refl|]. apply pop_ok; auto.
    - destruct H as (_ & Nx & gt & Ys & Tg & Ty & Ag & fn' & Es). eapply okr_from; [exact G2|exact L2|]. rewrite app_nil_r. eapply Tn; eauto.
    - eapply okr_from; [exact G2|apply later_refl|]. apply pop_ok; auto.
    - left; auto.
  Qed.
End store.

(** ** The modules are well typed *)
Definition find_types (done_ : list (list string * option nat)) (m : lmodule) : option (list nat) :=
  somes (map (fun d => find_type d done_) (lm_deps m)).
Fixpoint typed_mods (st : store) (done_ : list (list string * option nat)) (ms : list lmodule) (rs : list (nat * option tc)) : Prop :=
  match ms, rs with
  | [], [] => True
  | m :: ms', (u, oe) :: rs' =>
      (exists deps e, find_types done_ m = Some deps /\ oe = Some e /\ typed st [] deps [] e u /\ good 0 (List.length (lm_deps m)) [] e = true) /\
      typed_mods st (done_ ++ [(lm_path m, Some u)]) ms' rs'
  | _, _ => False
  end.

Lemma mod_frame deps ts s : fine s -> scopes s = [] -> Forall (fun t => t < List.length (types s)) ts ->
  fine (MkState (types s) [new_frame None (combine (map Mod deps) ts)]).
Proof.
  intros F E L. pose proof (push_fine s None (combine (map Mod deps) ts) F (or_introl eq_refl)) as P. rewrite E in P. apply P.
  clear - L. revert L. generalize (map Mod deps) as ns. induction ts as [|t ts IH]; intros [|n ns] L; cbn; auto.
  apply Forall_cons_iff in L. destruct L. constructor; auto.
Qed.
Lemma F2_single {A B} (R : A -> B -> Prop) a b r : Forall2 R [a] (b :: r) -> R a b /\ r = [].
Proof. intros F. inversion F as [|? ? ? ? H F']; subst. inversion F'. auto. Qed.
Lemma arg_vars_types args : forall i, map sv_type (arg_vars i args) = map snd args.
Proof. induction args as [|[x t] args IH]; intros i; cbn; auto. f_equal. auto. Qed.

Lemma module_typed fuel m deps s u oe s' : monomorphic_module m -> fine s -> scopes s = [] -> Forall (fun t => t < List.length (types s)) deps ->
  List.length deps = List.length (lm_deps m) -> check_module fuel m deps s = Done (Some (u, oe)) s' ->
  fine s' /\ scopes s' = [] /\ pre (types s) (types s') /\ u < List.length (types s') /\
  exists e, oe = Some e /\ typed (types s') [] deps [] e u.
Proof.
  intros Mo F S0 Ld Len H. set (fr0 := new_frame None (combine (map Mod (lm_deps m)) deps)) in *.
  assert (F1 : fine (MkState (types s) [fr0])) by (apply mod_frame; auto).
  unfold check_module in H. fold fr0 in H.
  assert (A0 : map sv_type (f_args fr0) = deps).
  { unfold fr0, new_frame. cbn [f_args]. rewrite arg_vars_types. clear - Len. revert Len. generalize (lm_deps m) as ds.
    induction deps as [|t deps IH]; intros [|d ds] L; cbn in *; try discriminate; auto. f_equal. auto. }
  (* the body, in a state that came from the first one *)
  assert (Body : forall v s1 p s2, lm_value m = Some v -> step (MkState (types s) [fr0]) s1 -> check (lm_path m) fuel v s1 = Done (Some p) s2 ->
    step (MkState (types s) [fr0]) s2 /\ fst p < List.length (types s2) /\ typed (types s2) [] deps [] (snd p) (fst p)).
  { intros v s1 p s2 Ev S1 E. destruct (check_typed (lm_path m) fuel) as [C _].
    destruct (C _ _ _ _ (Mo _ Ev) (step_fine _ _ S1) E) as [S2 [L2 T2]].
    assert (S02 : step (MkState (types s) [fr0]) s2) by (eapply step_trans; eauto). split; auto. split; auto.
    pose proof S02 as (F2 & _ & X). cbn [scopes] in X. destruct (scopes s2) as [|fr r] eqn:Sc; [inversion X|].
    apply F2_single in X. destruct X as [X1 ->].
    pose proof (fi_ok _ F2) as OK. rewrite Sc in OK. destruct OK as (_ & (Es & _) & _). cbn [top_typed] in T2. rewrite Es in T2. cbn [map] in T2.
    destruct X1 as [Y1 Y2 _ _ _]. rewrite (vle_types _ _ Y2), A0 in T2. assert (Y : f_locals fr = []) by (cbn in Y1; inversion Y1; auto). unfold ltypes in T2. rewrite Y in T2. exact T2. }
  assert (Pop : forall s2 fr s3, step (MkState (types s) [fr0]) s2 -> pop_frame s2 = Done fr s3 ->
    fine s3 /\ scopes s3 = [] /\ types s3 = types s2 /\ pre (types s) (types s3)).
  { intros s2 fr s3 S2 E. unfold pop_frame in E. destruct (scopes s2) as [|fr1 sc] eqn:Sc; [discriminate|]. injection E as <- <-.
    assert (S2' : step (MkState (types s) (fr0 :: scopes s)) s2) by (rewrite S0; exact S2).
    destruct (pop_step s fr0 s2 fr1 sc F S2' Sc) as [S3 _]. split; [apply S3|]. pose proof S3 as (_ & P & X). cbn in X. rewrite S0 in X. inversion X. auto. }
  destruct (lm_value m) as [v|] eqn:Ev.
  2:{ destruct (lm_type m); [|discriminate]. inv_bind H x s1 E1. unfold push_frame in E1. injection E1 as _ <-. inv_bind H y s2 E2. discriminate. }
  assert (H' : bind (push_frame fr0) (fun _ => bind (match lm_type m with
            | None => ret (Some None)
            | Some _ => bind (check_type (lm_path m) fuel v)
                            (fun o => ret (match o with Some t => Some (Some t) | None => None end))
            end) (fun type => match type with
    | None => bind pop_frame (fun _ => ret None)
    | Some ot => bind (bind (check (lm_path m) fuel v)
                         (fun o => ret (match o with Some r => Some (Some r) | None => None end)))
             (fun o => bind pop_frame (fun _ => match o with
        | None => ret None
        | Some r =>
            match ot, r with
            | Some t, Some (u, e) => bind (equal_m fuel t u) (fun b => ret (if b : bool then Some (u, Some e) else None))
            | Some t, None => ret (Some (t, None))
            | None, Some (u, e) => ret (Some (u, Some e))
            | None, None => ret None
            end
        end))
    end)) s = Done (Some (u, oe)) s').
  { destruct (lm_type m); exact H. }
  clear H. rename H' into H. inv_bind H x s1 E1. unfold push_frame in E1. rewrite S0 in E1. injection E1 as _ <-.
  inv_bind H ot s2 E2. destruct ot as [ot|]; [|inv_bind H fr s3 E3; inv_ret H; discriminate].
  assert (S2 : step (MkState (types s) [fr0]) s2 /\ match ot with Some t => t < List.length (types s2) | None => True end).
  { destruct (lm_type m).
    - inv_bind E2 o s3 E3. inv_ret E2. destruct o as [t|]; [|discriminate]. injection E2 as ->.
      destruct (check_typed (lm_path m) fuel) as [_ C]. apply (C _ _ _ _ (Mo _ Ev) F1 E3).
    - inv_ret E2. injection E2 as ->. split; auto using step_refl. }
  destruct S2 as [S2 Lt]. inv_bind H o s3 E3. inv_bind E3 q s4 E4. inv_ret E3. subst o. inv_bind H fr s5 E5.
  destruct q as [[w e]|]; [|inv_ret H; discriminate].
  destruct (Body v s2 (w, e) s4 eq_refl S2 E4) as (S4 & Lw & Tw). cbn [fst snd] in Lw, Tw.
  destruct (Pop _ _ _ S4 E5) as (F5 & Sc5 & T5 & P5).
  assert (Fin : fine s5 /\ scopes s5 = [] /\ pre (types s) (types s5) /\ w < List.length (types s5) /\ exists e0, Some e = Some e0 /\ typed (types s5) [] deps [] e0 w).
  { split; [exact F5|]. split; [exact Sc5|]. split; [exact P5|]. rewrite T5. split; [exact Lw|]. exists e. auto. }
  destruct ot as [t|].
  - inv_bind H b s6 E6. destruct (check_typed (lm_path m) fuel) as [C _].
    assert (S24 : step s2 s4) by (apply (C _ _ _ _ (Mo _ Ev) (step_fine _ _ S2) E4)).
    apply equal_m_ok in E6; auto; [|rewrite T5; eapply step_lt; eauto|rewrite T5; auto]. destruct E6 as [-> _].
    inv_ret H. destruct b; [|discriminate]. injection H as -> ->. exact Fin.
  - inv_ret H. injection H as -> ->. exact Fin.
Qed.

Definition done_lt (n : nat) (done_ : list (list string * option nat)) : Prop :=
  Forall (fun p => match snd p with Some t => t < n | None => True end) done_.
Lemma find_type_lt n done_ p t : done_lt n done_ -> find_type p done_ = Some t -> t < n.
Proof.
  intros F. induction F as [|[q o] r H F IH]; cbn; [discriminate|]. destruct (path_equal p q); auto. intros ->. exact H.
Qed.
Lemma find_types_lt n done_ m deps : done_lt n done_ -> find_types done_ m = Some deps -> Forall (fun t => t < n) deps.
Proof.
  intros D. unfold find_types. generalize (lm_deps m) as ds. intros ds. revert deps. induction ds as [|d ds IH]; intros deps H; cbn in H; [injection H as <-; auto|].
  destruct (find_type d done_) as [t|] eqn:E; [|discriminate]. destruct (somes (map (fun d0 => find_type d0 done_) ds)) as [ts|]; [|discriminate].
  injection H as <-. constructor; auto. eapply find_type_lt; eauto.
Qed.
Lemma typed_mods_grow st st' : plain st -> sle st st' -> plain st' -> forall ms rs done_, typed_mods st done_ ms rs -> typed_mods st' done_ ms rs.
Proof.
  intros S1 G S2. induction ms as [|m ms IH]; intros [|[u oe] rs] done_ H; cbn in *; auto. destruct H as [(deps & e & A & B & C & D) H]. split; auto.
  exists deps, e. split; auto. split; auto. split; auto. eapply typed_grow; [exact S1|exact G|exact S2|exact C].
Qed.
Lemma modules_typed fuel : forall ms done_ s os s' rs, Forall monomorphic_module ms -> fine s -> scopes s = [] -> done_lt (List.length (types s)) done_ ->
  check_modules fuel ms done_ s = Done os s' -> somes os = Some rs ->
  fine s' /\ pre (types s) (types s') /\ typed_mods (types s') done_ ms rs.
Proof.
  induction ms as [|m ms IH]; intros done_ s os s' rs Mo F S0 D H So; cbn [check_modules] in H.
  - inv_ret H. subst. cbn in So. injection So as <-. split; auto. split; [apply pre_refl|exact I].
  - apply Forall_cons_iff in Mo. destruct Mo as [Mm Mo]. inv_bind H o s1 E1. inv_bind H os' s2 E2. inv_ret H. subst. cbn in So.
    destruct o as [[u oe]|]; [|discriminate]. destruct (somes os') as [rs'|] eqn:Sr; [|discriminate]. injection So as <-.
    fold (find_types done_ m) in E1. destruct (find_types done_ m) as [deps|] eqn:Ef; [|discriminate].
    assert (Len : List.length deps = List.length (lm_deps m)).
    { unfold find_types in Ef. apply somes_len in Ef. rewrite map_length in Ef. auto. }
    destruct (module_typed _ _ _ _ _ _ _ Mm F S0 (find_types_lt _ _ _ _ D Ef) Len E1) as (F1 & S1 & P1 & L1 & e & -> & T1).
    destruct (CheckProps.module_scoped _ _ _ _ _ _ S0 Len E1) as [_ [_ Gd]]. cbn [option_map fst] in E2.
    assert (D1 : done_lt (List.length (types s1)) (done_ ++ [(lm_path m, Some u)])).
    { apply Forall_app. split; [|constructor; auto]. eapply Forall_impl; [|exact D]. intros [q [t|]]; cbn; auto. intros Ht.
      eapply Nat.lt_le_trans; [exact Ht|apply pre_lt; auto]. }
    destruct (IH _ _ _ _ _ Mo F1 S1 D1 E2 Sr) as (F2 & P2 & T2).
    split; auto. split; [eapply pre_trans; eauto|]. cbn [typed_mods]. split; auto. exists deps, e. split; auto. split; auto. split; auto.
    eapply typed_grow; [apply fine_plain; exact F1|apply pre_sle; exact P2|apply fine_plain; exact F2|exact T1].
Qed.

(** ** Running the modules *)
Lemma link_name_inj x y : link_name x = link_name y -> x = y.
Proof.
  unfold link_name. intros H. injection H as H. rewrite <- (string_of_list_ascii_of_string x), <- (string_of_list_ascii_of_string y). f_equal.
  revert H. generalize (list_ascii_of_string x) as a, (list_ascii_of_string y) as b. induction a as [|c a IH]; intros [|d b] H; try discriminate; auto.
  cbn in H. injection H as H1 H2. f_equal; auto. apply Nat2Z.inj in H1. rewrite <- (ascii_nat_embedding c), <- (ascii_nat_embedding d). congruence.
Qed.
Lemma link_path_inj : forall p q, link_path p = link_path q -> p = q.
Proof.
  induction p as [|x p IH]; intros [|y q] H; cbn in H; try discriminate; auto. injection H as H1 H2. f_equal; auto. apply link_name_inj; unfold link_name; congruence.
Qed.

Lemma NoDup_app_remove_r {A} (a b : list A) : NoDup (a ++ b) -> NoDup a.
Proof.
  induction a as [|x a IH]; intros N; constructor; cbn in N; apply NoDup_cons_iff in N; destruct N as [Ni N]; auto. intros I. apply Ni, in_or_app. auto.
Qed.

Section run.
  Variable st : store.
  Hypothesis Si : simple st.

  Definition env_typed (Sg : list nat) (env : list (path * cval)) (done_ : list (list string * option nat)) : Prop :=
    Forall2 (fun pv pt => fst pv = link_path (fst pt) /\ exists u v', snd pt = Some u /\ vrel (snd pv) v' /\ vty st Sg v' u) env done_.
  Lemma env_typed_grows Sg Sg' env done_ : grows Sg Sg' -> env_typed Sg env done_ -> env_typed Sg' env done_.
  Proof.
    intros G F. eapply Forall2_impl; [|exact F]. cbn. intros [p v] [q o] (E & u & v' & E2 & V & T). split; auto. exists u, v'.
    split; auto. split; auto. eapply vty_weaken; eauto.
  Qed.
  Lemma env_find Sg env done_ d x u : env_typed Sg env done_ -> NoDup (map fst env) -> In (link_path d, x) env -> find_type d done_ = Some u ->
    exists v', vrel x v' /\ vty st Sg v' u.
  Proof.
    intros F. induction F as [|[p v] [q o] env done_ (E & w & v' & E2 & V & T) F IH]; intros N I H; [destruct I|].
    cbn [fst snd] in *. cbn [map fst] in N. apply NoDup_cons_iff in N. destruct N as [Ni N]. cbn [find_type] in H.
    destruct (path_equal d q) eqn:Ed.
    - apply path_equal_eq in Ed. subst q o p. injection H as ->. destruct I as [I|I]; [injection I as <-; eauto|].
      destruct Ni. apply in_map_iff. exists (link_path d, x). auto.
    - destruct I as [I|I]; [|auto]. injection I as -> ->. apply link_path_inj in E. subst q.
      assert (path_equal d d = true) by (apply path_equal_eq; auto). congruence.
  Qed.
  Lemma env_args Sg env done_ ds : forall xs deps, env_typed Sg env done_ -> NoDup (map fst env) ->
    Forall2 (fun d x => In (d, x) env) (map link_path ds) xs -> somes (map (fun d => find_type d done_) ds) = Some deps ->
    exists ys, Forall2 vrel xs ys /\ Forall2 (vty st Sg) ys deps.
  Proof.
    induction ds as [|d ds IH]; intros xs deps F N I H; cbn in *.
    - inversion I; subst. injection H as <-. exists []. auto.
    - inversion I as [|? x ? xs' Ix I']; subst. destruct (find_type d done_) as [u|] eqn:E; [|discriminate].
      destruct (somes (map (fun d0 => find_type d0 done_) ds)) as [us|] eqn:Es; [|discriminate]. injection H as <-.
      destruct (env_find _ _ _ _ _ _ F N Ix E) as (v' & V & T). destruct (IH _ _ F N I' eq_refl) as (ys & Vs & Ts). exists (v' :: ys). auto.
  Qed.

  (** The function of a module against its body. *)
  Lemma module_func_rel m e c nb : good 0 (List.length (lm_deps m)) [] e = true -> branching e ->
    CompileModel.compile_code (List.length (lm_deps m)) e = Some (c_code c, nb) ->
    vrel (module_func c) (VFunc (List.length (lm_deps m)) e 0 []).
  Proof.
    intros G B E. apply CheckProps.branching_has_targets in B. pose proof (good_wf _ _ _ _ G B) as W.
    destruct (CompileCalls.compile_total _ _ W) as (c' & nb' & E' & C & Na & Ns). rewrite E in E'. injection E' as <- <-.
    unfold module_func. rewrite Na. constructor; auto.
  Qed.

  Definition last_type (done_ : list (list string * option nat)) (rs : list (nat * option tc)) : option nat :=
    last (map snd done_ ++ map (fun r => Some (fst r)) rs) None.
  Lemma evaluates_ok n : forall cs env s r, evaluates (icall n) cs env s r -> forall ms rs done_ t Sg,
    srel s t -> st_ok st Sg (refs t) -> NoDup (map fst env ++ map c_path cs) -> env_typed Sg env done_ -> typed_mods st done_ ms rs ->
    Forall2 (fun mr c => built (fst mr) (snd (snd mr)) c) (combine ms rs) cs ->
    match r with
    | (Ret v, s') => depth s' = depth s /\ exists u, last_type done_ rs = Some u /\ vok st s' v u
    | (Abort, s') => depth s' = depth s
    | (Timeout, _) => True
    | _ => False
    end.
  Proof.
    assert (Call : forall m e c done_ deps env xs Sg s t u, srel s t -> st_ok st Sg (refs t) -> NoDup (map fst env) ->
      env_typed Sg env done_ -> find_types done_ m = Some deps -> typed st [] deps [] e u -> good 0 (List.length (lm_deps m)) [] e = true ->
      built m (Some e) c -> Forall2 (fun d x => In (d, x) env) (c_deps c) xs ->
      exists z, CompileRel.rrel (icall n s (module_func c) xs) z /\ okr st Sg (refs t) (depth t) false u z).
    { intros m e c done_ deps env xs Sg s t u R K N F D T G (Ep & Ed & e' & nb & Ee & B & Ec) I. injection Ee as <-.
      rewrite Ed in I. destruct (env_args _ _ _ _ _ _ F N I D) as (ys & Vs & Ts).
      exists (CompileEval.ecall n t (VFunc (List.length (lm_deps m)) e 0 []) ys). split.
      - apply CompileCalls.call_rel; auto. eapply module_func_rel; eauto.
      - eapply module_call_ok; eauto. apply CompileRel.F2_len in Ts. rewrite Ts. unfold find_types in D. apply somes_len in D. rewrite map_length in D. auto. }
    intros cs env s r Ev. induction Ev as [c cs env s xs v s1 r I E Ev IH|c cs env s xs o s1 I E No|env p v s]; intros ms rs done_ t Sg R K N F T Bs.
    - destruct ms as [|m ms], rs as [|[u oe] rs]; cbn [typed_mods] in T; try contradiction; [inversion Bs|].
      destruct T as [(deps & e & D & -> & Ty & G) T]. cbn [combine] in Bs. inversion Bs as [|? ? ? ? B Bs']; subst. cbn [fst snd] in B.
      destruct (Call m e c done_ deps env xs Sg s t u R K (NoDup_app_remove_r _ _ N) F D Ty G B I) as ([o' t1] & [O Rs] & Ok).
      rewrite E in O, Rs. cbn [fst snd] in O, Rs. inversion O as [? v' V| | | |]; subst.
      destruct Ok as [Ok|(Sg1 & K1 & G1 & _ & D1 & T1)]; [discriminate|].
      specialize (IH ms rs (done_ ++ [(lm_path m, Some u)]) t1 Sg1 Rs K1).
      assert (Ds : depth s1 = depth s) by (destruct R, Rs; congruence).
      rewrite Ds in IH.
      assert (Ll : last_type (done_ ++ [(lm_path m, Some u)]) rs = last_type done_ ((u, Some e) :: rs)).
      { unfold last_type. rewrite map_app, <- app_assoc. reflexivity. }
      rewrite Ll in IH. apply IH; auto.
      + rewrite map_app, <- app_assoc. exact N.
      + apply Forall2_app; [eapply env_typed_grows; eauto|]. constructor; auto. cbn [fst snd]. split; [apply B|]. exists u, v'. auto.
    - destruct ms as [|m ms], rs as [|[u oe] rs]; cbn [typed_mods] in T; try contradiction; [inversion Bs|].
      destruct T as [(deps & e & D & -> & Ty & G) T]. cbn [combine] in Bs. inversion Bs as [|? ? ? ? B Bs']; subst. cbn [fst snd] in B.
      destruct (Call m e c done_ deps env xs Sg s t u R K (NoDup_app_remove_r _ _ N) F D Ty G B I) as ([o' t1] & [O Rs] & Ok).
      rewrite E in O, Rs. cbn [fst snd] in O, Rs. destruct Ok as [->|(Sg1 & K1 & G1 & _ & D1 & T1)]; [inversion O; subst; auto|].
      inversion O as [? v' V| | | |]; subst; auto; try contradiction.
      + destruct (No _ eq_refl).
      + destruct T1; discriminate.
      + destruct R, Rs; congruence.
    - destruct ms as [|m ms], rs as [|[u oe] rs]; cbn [typed_mods] in T; try contradiction; [|cbn in Bs; inversion Bs].
      split; auto. apply Forall2_app_inv_l in F. destruct F as (d1 & d2 & F1 & F2 & ->). inversion F2 as [|? [q o] ? d3 (Eq & u & v' & Eo & V & Ty) F3]; subst.
      inversion F3; subst. cbn [fst snd] in *. subst o. exists u. split; [unfold last_type; rewrite map_app; cbn [map snd]; rewrite app_nil_r, last_last; reflexivity|].
      exists t, Sg, v'. auto.
  Qed.
End run.

Lemma no_get n t : get [] n = Some t -> False.
Proof. unfold get. destruct n; discriminate. Qed.
Lemma empty_fine : fine (MkState [] []).
Proof.
  constructor; cbn [types scopes]; [|intros n H; cbn in H; lia|exact I|constructor].
  constructor; [intros n t E|intros n a b E|intros n f x E|intros n q E|intros n k x v E]; destruct (no_get _ _ E).
Qed.
Lemma empty_ok st : st_ok st [] [].
Proof. constructor; [reflexivity|intros [|l]; discriminate|intros l H; cbn in H; lia]. Qed.

Lemma founded_simple st : plain st -> (forall t, t < List.length st -> founded st t) -> simple st.
Proof.
  intros P F. split; auto. intros t L. specialize (F t L). clear L. induction F as [t d E D|t k x v E F (h & Ph)|t p u E F (h & Ph)].
  - exists t. destruct d as [u fs|a b|a b|a b|q o|q b|k x [v|]|b]; try contradiction.
    + apply peel_here; [eapply whnf_data; eauto|congruence].
    + apply peel_here; [eapply whnf_func; eauto|congruence].
    + destruct (s_poly _ P _ _ _ E).
    + destruct (CheckTyping.s_apply _ P _ _ _ E).
    + apply peel_here; [eapply whnf_package; eauto|congruence].
    + apply peel_here; [eapply whnf_free; eauto|congruence].
    + apply peel_here; [eapply whnf_type; eauto|congruence].
  - exists h. inversion Ph as [? ? W N|? m p u ? W E' P']; subst.
    + apply peel_here; auto. eapply whnf_var; eauto.
    + eapply peel_under; eauto. eapply whnf_var; eauto.
  - exists h. eapply peel_under; eauto. eapply whnf_abstract; eauto.
Qed.

Lemma accepted_safe_at : forall fuel ms rs u e s cs main_id blk c0,
  Forall monomorphic_module ms ->
  check_modules fuel ms [] (MkState [] []) = Done (map Some (rs ++ [(u, e)])) s ->
  Forall2 (fun mr c => built (fst mr) (snd (snd mr)) c) (combine ms (rs ++ [(u, e)])) cs ->
  (forall t, t < List.length (types s) -> founded (types s) t) ->
  ordered cs -> link_code main_id cs = Some c0 ->
  forall n d p, safe_result (types s) u (icall n (mk_st [] d p) (VFunc 0 c0 blk (map module_func cs)) []).
Proof.
  intros fuel ms rs u e s cs main_id blk c0 Mo H Bs Fo O Lf n d p. destruct n as [|n]; [exact I|].
  assert (F0 : fine (MkState [] [])) by exact empty_fine.
  assert (So : somes (map Some (rs ++ [(u, e)])) = Some (rs ++ [(u, e)])).
  { generalize (rs ++ [(u, e)]) as l. induction l as [|x l IH]; cbn; auto. rewrite IH. reflexivity. }
  destruct (modules_typed _ _ _ _ _ _ _ Mo F0 eq_refl (Forall_nil _) H So) as (F & _ & T). pose proof (founded_simple _ (fine_plain _ F) Fo) as Si.
  assert (Ne : cs <> []).
  { intros ->. inversion Bs as [Q|]. destruct ms as [|m ms]; [|destruct rs; discriminate]. destruct rs; cbn in T; contradiction. }
  destruct (linked_program_runs main_id cs O Ne) as (c & Ec & _ & R).
  specialize (R n blk (FuncModel.push_frame (log (PEnter blk) (mk_st [] d p)))).
  set (r := interpret (icall n) c blk (map module_func cs) [] (FuncModel.push_frame (log (PEnter blk) (mk_st [] d p)))) in R.
  rewrite (linked_call_at main_id blk cs c0 O Ne Lf n _ r R).
  pose proof (evaluates_ok (types s) Si n cs [] _ r R ms (rs ++ [(u, e)]) [] (FuncModel.push_frame (log (PEnter blk) (mk_st [] d p))) []) as Ok.
  assert (Ok' : match r with
    | (Ret v, s') => depth s' = S d /\ exists w, last_type [] (rs ++ [(u, e)]) = Some w /\ vok (types s) s' v w
    | (Abort, s') => depth s' = S d | (Timeout, _) => True | _ => False end).
  { refine (Ok _ _ _ _ T Bs); [split; [constructor|reflexivity]|apply empty_ok|cbn; apply O|constructor]. }
  clear Ok. destruct r as [o s1]. destruct o as [v| | | |]; try contradiction.
  - destruct Ok' as (D & u' & Lu & V). unfold last_type in Lu. cbn [map app] in Lu. rewrite map_app in Lu. cbn [map fst] in Lu. rewrite last_last in Lu. injection Lu as ->.
    unfold pop_with, FuncModel.pop_frame. rewrite D. intros k. apply vok_behaves; auto.
    destruct V as (t' & Sg & v' & [R1 _] & K & V & Tv). exists (mk_st (refs t') d []), Sg, v'. split; [split; [exact R1|reflexivity]|auto].
  - unfold pop_with, FuncModel.pop_frame. rewrite Ok'. exact I.
  - exact I.
Qed.

(** C47 *)
Theorem accepted_programs_safe_partial : forall fuel ms rs u e s cs main_id f,
  Forall monomorphic_module ms ->
  check_modules fuel ms [] (MkState [] []) = Done (map Some (rs ++ [(u, e)])) s ->
  Forall2 (fun mr c => built (fst mr) (snd (snd mr)) c) (combine ms (rs ++ [(u, e)])) cs ->
  (forall t, t < List.length (types s) -> founded (types s) t) ->
  ordered cs -> link_interpreted main_id cs = Some f ->
  forall n d p, safe_result (types s) u (icall n (mk_st [] d p) f []).
Proof.
  intros fuel ms rs u e s cs main_id f Mo H Bs Fo O Lf. unfold link_interpreted in Lf. destruct (link_code main_id cs) as [c|] eqn:Ec; [|discriminate]. injection Lf as <-.
  eapply accepted_safe_at; eauto.
Qed.

(** ** Examples *)
Fixpoint founded_in (k : nat) (st : store) (t : nat) : bool :=
  match k with
  | 0 => false
  | S k' => match get st t with
            | None => false
            | Some (TVar _ _ (Some v)) => founded_in k' st v
            | Some (TAbstract _ u) => founded_in k' st u
            | Some _ => true
            end
  end.
Lemma founded_in_ok st : forall k t, founded_in k st t = true -> founded st t.
Proof.
  induction k as [|k IH]; intros t H; cbn in H; [discriminate|]. destruct (get st t) as [d|] eqn:E; [|discriminate].
  destruct d as [u fs|a b|a b|a b|q o|q b|kd x [v|]|b]; try solve [eapply founded_here; [exact E|exact I]].
  - eapply founded_abstract; eauto.
  - eapply founded_name; eauto.
Qed.
Lemma all_founded k st : forallb (founded_in k st) (seq 0 (List.length st)) = true -> forall t, t < List.length st -> founded st t.
Proof. intros H t L. eapply founded_in_ok. eapply forallb_forall in H; eauto. apply in_seq. lia. Qed.

Section examples.
  Local Open Scope string_scope.
  Let n (x : string) : vname := MkVName x false 0.
  Let t (x : string) : vname := MkVName x true 0.
  Let unit_type := EDataType false [].
  Let unit_value := EApply false unit_type [].
  Let bool_type := EDataType true [(n "true", unit_type); (n "false", unit_type)].

  (** Two modules, where the first exports a struct of functions into and out of an abstract
      type, and the second uses them.
      /M: [@ P@ = %/M; @ Bool@ = +(Unit@ true, Unit@ false); @ T@ = P@<Bool@>;
           @ R@ = *((Bool@) { T@; } mk, (T@) { Bool@; } get);
           R@((Bool@ x) { P@.<T@>(x); }, (T@ y) { y.%; })]
      /N: [/M%.get(/M%.mk(...))]. *)
  Definition cast_program : list lmodule :=
    [MkLModule ["M"] [] None (Some
      (ELet [(t "P", inl (Basic 1), EPackage ["M"])]
       (ELet [(t "Bool", inl (Basic 1), bool_type)]
        (ELet [(t "T", inl (Basic 1), EPolyApply (EVar (t "P")) (EVar (t "Bool")))]
         (EStruct [(n "mk", EFunc (n "x") (EVar (t "Bool")) (ECast (EVar (t "P")) (EVar (t "T")) (EVar (n "x"))));
                   (n "get", EFunc (n "y") (EVar (t "T")) (EAbsAccess (EVar (n "y"))));
                   (n "no", EUnion (EVar (t "Bool")) (n "false") unit_value)])))));
     MkLModule ["N"] [["M"]] None (Some
       (EApply false (EAccess (EModulePath ["M"]) (n "get"))
          [EApply false (EAccess (EModulePath ["M"]) (n "mk")) [EAccess (EModulePath ["M"]) (n "no")]]))].

  Let build (m : lmodule) (oe : option tc) : cmodule :=
    match oe with
    | Some e => match CompileModel.compile_code (List.length (lm_deps m)) e with
                | Some (c, _) => mk_cmodule (link_path (lm_path m)) (map link_path (lm_deps m)) c 0
                | None => mk_cmodule [] [] (Code 0 0 0 0 []) 0
                end
    | None => mk_cmodule [] [] (Code 0 0 0 0 []) 0
    end.
  Let build_ok m e : branching e -> (match CompileModel.compile_code (List.length (lm_deps m)) e with Some _ => true | None => false end) = true ->
    built m (Some e) (build m (Some e)).
  Proof.
    intros B H. unfold build. destruct (CompileModel.compile_code (List.length (lm_deps m)) e) as [[c nb]|] eqn:E; [|discriminate].
    split; [reflexivity|]. split; [reflexivity|]. exists e, nb. auto.
  Qed.
  Let path_M : PathProps.path_ok (link_path ["M"]).
  Proof. repeat constructor; cbn; lia. Qed.
  Let path_N : PathProps.path_ok (link_path ["N"]).
  Proof. repeat constructor; cbn; lia. Qed.
  Let ordered_one m0 : c_path m0 = link_path ["M"] -> c_deps m0 = [] -> ordered [m0].
  Proof.
    intros A B. split; [repeat constructor; auto|]. split.
    - intros a m b E d I. destruct a as [|x a]; cbn in E; [injection E as <- _; rewrite B in I; destruct I|]. injection E as _ E. destruct a; discriminate.
    - intros m [<-|[]]. rewrite A, B. auto.
  Qed.
  Let ordered_two m0 m1 : c_path m0 = link_path ["M"] -> c_deps m0 = [] -> c_path m1 = link_path ["N"] -> c_deps m1 = [link_path ["M"]] -> ordered [m0; m1].
  Proof.
    intros A B C D. split; [cbn; rewrite A, C; repeat constructor; cbn; intuition discriminate|]. split.
    - intros a m b E d I. destruct a as [|x [|y [|z a]]]; cbn in E; try discriminate.
      + injection E as <- _. rewrite B in I. destruct I.
      + injection E as <- <- _. rewrite D in I. destruct I as [<-|[]]. cbn. auto.
    - intros m [<-|[<-|[]]]; [rewrite A, B|rewrite C, D]; auto.
  Qed.

  (** The hypotheses of the theorem hold of the program, and it runs to a value. *)
  Let cast_out := Eval vm_compute in
    match check_modules 60 cast_program [] (MkState [] []) with Done [Some a; Some b] s => Some (a, b, s) | _ => None end.
  Let cast_func := Eval vm_compute in
    match cast_out with
    | Some (a, b, _) =>
        match link_interpreted 0 (map (fun p => build (fst p) (snd p)) (combine cast_program [snd a; snd b])) with Some f => f | None => VType end
    | None => VType
    end.
  Theorem cast_program_runs : exists rs u e s cs f,
    Forall monomorphic_module cast_program /\
    check_modules 60 cast_program [] (MkState [] []) = Done (map Some (rs ++ [(u, e)])) s /\
    Forall2 (fun mr c => built (fst mr) (snd (snd mr)) c) (combine cast_program (rs ++ [(u, e)])) cs /\
    (forall t, t < List.length (types s) -> founded (types s) t) /\
    ordered cs /\ link_interpreted 0 cs = Some f /\
    fst (icall 20 (mk_st [] 0 []) f []) = Ret (VUnion 1 (VStruct [])).
  Proof.
    pose (o := cast_out). unfold cast_out in o. match eval unfold o in o with Some ((?u0, ?e0), (?u, ?e), ?s) =>
      exists [(u0, e0)], u, e, s, (map (fun p => build (fst p) (snd p)) (combine cast_program [e0; e])) end. clear o.
    exists cast_func. split.
    { repeat constructor; intros x Ex; injection Ex as <-; reflexivity. }
    split; [vm_compute; reflexivity|]. split.
    { unfold cast_program; cbn [combine app map fst snd]. (apply Forall2_cons; [|apply Forall2_cons; [|apply Forall2_nil]]); cbn [fst snd];
        (apply build_ok; [repeat constructor|vm_compute; reflexivity]). }
    split; [apply (all_founded 20); vm_compute; reflexivity|].
    split; [apply ordered_two; vm_compute; reflexivity|]. split; vm_compute; reflexivity.
  Qed.

  (** [founded] is needed: the type checker accepts this program, though it applies a struct.
      [@ P@ = %/M; @ T@ = P@<T@>; (Unit@) { Unit@; } f = P@.<(Unit@) { Unit@; }>(P@.<T@>(Unit@())); f(Unit@())].
      When [T@] is compared with another type while [P@] is not opaque, each look through
      [T@] gives [T@] again, and the pair is then assumed to be equal (lib/type.c:594-660). *)
  Definition unsound_program : list lmodule :=
    [MkLModule ["M"] [] None (Some
      (ELet [(t "P", inl (Basic 1), EPackage ["M"])]
       (ELet [(t "T", inl (Basic 1), EPolyApply (EVar (t "P")) (EVar (t "T")))]
        (ELet [(n "f", inr (EFuncType unit_type unit_type),
                ECast (EVar (t "P")) (EFuncType unit_type unit_type) (ECast (EVar (t "P")) (EVar (t "T")) unit_value))]
         (EApply false (EVar (n "f")) [unit_value])))))].
  Let unsound_out := Eval vm_compute in
    match check_modules 60 unsound_program [] (MkState [] []) with Done [Some a] s => Some (a, s) | _ => None end.
  Let unsound_func := Eval vm_compute in
    match unsound_out with
    | Some (a, _) => match link_interpreted 0 [build (MkLModule ["M"] [] None None) (snd a)] with Some f => f | None => VType end
    | None => VType
    end.
  Theorem unfounded_cast_unsound : exists u e s c f,
    Forall monomorphic_module unsound_program /\
    check_modules 60 unsound_program [] (MkState [] []) = Done [Some (u, e)] s /\
    built (MkLModule ["M"] [] None None) e c /\ ordered [c] /\ link_interpreted 0 [c] = Some f /\
    fst (icall 20 (mk_st [] 0 []) f []) = Crash.
  Proof.
    pose (o := unsound_out). unfold unsound_out in o. match eval unfold o in o with Some ((?u, ?e), ?s) =>
      exists u, e, s, (build (MkLModule ["M"] [] None None) e) end. clear o.
    exists unsound_func. split.
    { repeat constructor; intros x Ex; injection Ex as <-; reflexivity. }
    split; [vm_compute; reflexivity|]. split.
    { apply build_ok; [repeat constructor|vm_compute; reflexivity]. }
    split; [|split; vm_compute; reflexivity].
    apply ordered_one; vm_compute; reflexivity.
  Qed.
End examples.
