(** * Properties of the type checker (C46). *)
From Coq Require Import String List Arith Lia Bool Sorted.
From Verif Require CompileEval CompileStatic CompileCalls.
From Verif Require Import KindModel UnusedModel TypeModel FuncModel CodeModel CompileModel CheckModel CheckScope CheckScoped CheckSpec.
Import ListNotations.
Local Open Scope list_scope.
Local Notation tc := CompileModel.tc.

(** ** From the checks of the proofs to the specification *)
Lemma wf_var_readable ns na L v : CompileEval.wf_var ns na L v = true -> readable ns na L v.
Proof.
  destruct v as [i|i|i]; cbn; intros H.
  - constructor. apply Nat.ltb_lt; auto.
  - constructor. apply Nat.ltb_lt; auto.
  - constructor. destruct (nth_error L i) as [b|] eqn:E.
    + apply nth_error_nth with (d := false) in E. congruence.
    + rewrite nth_overflow in H; [discriminate|]. apply nth_error_None; auto.
Qed.
Lemma sorted_from_strong l : forall lo, CompileEval.sorted_from lo l = true -> StronglySorted lt l /\ Forall (le lo) l.
Proof.
  induction l as [|x l IH]; intros lo H; cbn in *; [split; constructor|].
  apply andb_prop in H. destruct H as [H1 H2]. apply Nat.leb_le in H1. destruct (IH _ H2) as [S F].
  split; constructor; auto. eapply Forall_impl; [|exact F]. intros a Ha. lia.
Qed.
Lemma forallb_F {A} (p : A -> bool) (P : A -> Prop) l : Forall (fun x => p x = true -> P x) l -> forallb p l = true -> Forall P l.
Proof. intros F. induction F; cbn; intros H'; constructor; apply andb_prop in H'; destruct H'; auto. Qed.
Lemma good_in_scope e : forall ns na L, good ns na L e = true -> in_scope ns na L e.
Proof.
  induction e using CompileStatic.tc_ind'; intros ns na L G; cbn in G;
    repeat match goal with H : (_ && _)%bool = true |- _ => apply andb_prop in H; destruct H end;
    constructor; auto using wf_var_readable;
    try (eapply forallb_F; [|eassumption]; eapply Forall_impl; [|eassumption]; cbn; auto; fail).
  - eapply forallb_F; [|eassumption]. eapply Forall_impl; [|eassumption].
    intros [a|]; cbn; intros IH Ha a' Ea; [|discriminate]. injection Ea as <-. auto.
  - eapply sorted_from_strong; eauto.
  - apply Forall_forall. intros t Ht. match goal with H : forallb _ (map fst ts) = true |- _ => rewrite forallb_forall in H; apply Nat.ltb_lt, H end. exact Ht.
  - eapply forallb_F; [|eassumption]. apply Forall_forall. intros v _. apply wf_var_readable.
Qed.
Lemma branching_has_targets e : branching e -> has_targets e = true.
Proof.
  induction e using CompileStatic.tc_ind'; intros B; inversion B; subst; cbn; auto;
    repeat (rewrite andb_true_iff; split); auto;
    try (apply forallb_forall; intros x Hx; rewrite Forall_forall in *; auto).
  - destruct x as [a|]; auto. exact (H _ Hx (H3 _ Hx _ eq_refl)).
  - destruct ts; [contradiction|reflexivity].
Qed.

(** ** A module, and the program *)
Definition module_result (m : lmodule) (o : option (nat * option tc)) : Prop :=
  match o with
  | Some (_, Some e) => lm_value m <> None /\ good 0 (List.length (lm_deps m)) [] e = true
  | Some (_, None) => lm_value m = None
  | None => True
  end.
Lemma one_frame fr0 s : f_locals fr0 = [] -> scopes_ok (scopes s) -> sext [fr0] (scopes s) ->
  exists fr, scopes s = [fr] /\ f_statics fr = [] /\ List.length (f_args fr) = List.length (f_args fr0) /\ f_locals fr = [].
Proof.
  intros L O X. destruct (scopes s) as [|fr [|fr2 r]]; inversion X as [|? ? ? ? X1 X2]; subst; [|inversion X2].
  exists fr. split; auto. cbn in O. destruct O as (_ & (St & _) & _). split; auto. split; [apply args_ext; auto|].
  pose proof (x_locals _ _ X1) as F. rewrite L in F. inversion F; auto.
Qed.
Lemma arg_vars_length args : forall i, List.length (arg_vars i args) = List.length args.
Proof. induction args as [|[x t] r IH]; intros i; cbn; auto. Qed.
Lemma arg_vars_placed args : forall i, placed CodeModel.Arg i (arg_vars i args).
Proof. induction args as [|[x t] r IH]; intros i; cbn; auto. Qed.

Lemma module_scoped fuel m deps s o s' : scopes s = [] -> List.length deps = List.length (lm_deps m) ->
  check_module fuel m deps s = Done o s' -> scopes s' = [] /\ module_result m o.
Proof.
  intros S0 L H.
  set (fr0 := new_frame None (combine (map Mod (lm_deps m)) deps)) in *.
  assert (H' : exists ot s2, (match lm_type m with
            | None => ret (Some None)
            | Some _ =>
                match lm_value m with
                | None => bad
                | Some v => bind (check_type (lm_path m) fuel v)
                            (fun o => ret (match o with Some t => Some (Some t) | None => None end))
                end
            end) (MkState (types s) [fr0]) = Done ot s2 /\
    match ot with
    | None => bind pop_frame (fun _ => ret None) s2 = Done o s'
    | Some ot => bind (match lm_value m with
             | None => ret (Some None)
             | Some v => bind (check (lm_path m) fuel v)
                         (fun o => ret (match o with Some r => Some (Some r) | None => None end))
             end) (fun o => bind pop_frame (fun _ => match o with
        | None => ret None
        | Some r =>
            match ot, r with
            | Some t, Some (u, e) => bind (equal_m fuel t u) (fun b => ret (if b : bool then Some (u, Some e) else None))
            | Some t, None => ret (Some (t, None))
            | None, Some (u, e) => ret (Some (u, Some e))
            | None, None => ret None
            end
        end)) s2 = Done o s'
    end).
  { unfold check_module in H. fold fr0 in H.
    destruct (lm_type m) as [ty|] eqn:Et; destruct (lm_value m) as [v|] eqn:Ev; try discriminate;
    apply bind_inv in H; destruct H as ([] & s1 & E1 & H); unfold push_frame in E1; rewrite S0 in E1; injection E1 as <-;
    apply bind_inv in H; destruct H as (ot & s2 & E2 & H); exists ot, s2; (split; [exact E2|]; destruct ot; exact H). }
  clear H. destruct H' as (ot & s2 & E2 & H).
  assert (O1 : scopes_ok [fr0]).
  { cbn. split; [|split; auto]. split; cbn; auto. apply arg_vars_placed. }
  assert (O2 : scopes_ok (scopes s2) /\ sext [fr0] (scopes s2)).
  { destruct (lm_type m) as [ty|].
    - destruct (lm_value m) as [v|]; [|discriminate]. apply bind_inv in E2. destruct E2 as (x & s3 & E3 & E2).
      apply ret_inv in E2. destruct E2 as [_ ->].
      destruct (check_scoped (lm_path m) fuel) as [_ Ct]. destruct (Ct v [] (MkState (types s) [fr0]) _ _ O1 (Forall_nil _) E3) as (A & B & _). auto.
    - apply ret_inv in E2. destruct E2 as [_ ->]. cbn. split; auto. apply sext_refl. }
  destruct O2 as [O2 X2].
  assert (N0 : List.length (f_args fr0) = List.length (lm_deps m)).
  { unfold fr0, new_frame. cbn. rewrite arg_vars_length, combine_length, map_length. lia. }
  assert (Pop : forall s3 fr s4, pop_frame s3 = Done fr s4 -> sext [fr0] (scopes s3) -> scopes s4 = []).
  { intros s3 fr s4 E X. unfold pop_frame in E. destruct (scopes s3) as [|fr1 [|fr2 r]] eqn:Es; try discriminate.
    - injection E as <- <-. reflexivity.
    - inversion X as [|? ? ? ? _ X1]; inversion X1. }
  destruct ot as [ot|].
  2:{ apply bind_inv in H. destruct H as (fr & s3 & E3 & H). apply ret_inv in H. destruct H as [-> ->]. cbn. split; eauto. }
  apply bind_inv in H. destruct H as (r & s3 & E3 & H). apply bind_inv in H. destruct H as (fr & s4 & E4 & H).
  assert (G : sext [fr0] (scopes s3) /\
    match r with
    | Some (Some (_, e)) => lm_value m <> None /\ good 0 (List.length (lm_deps m)) [] e = true
    | Some None => lm_value m = None
    | None => True
    end).
  { destruct (lm_value m) as [v|].
    - apply bind_inv in E3. destruct E3 as (x & s5 & E5 & E3). apply ret_inv in E3. destruct E3 as [-> ->].
      destruct (check_scoped (lm_path m) fuel) as [Cc _]. destruct (Cc v [] _ _ _ O2 (Forall_nil _) E5) as (A & B & C).
      assert (X : sext [fr0] (scopes s5)) by (eapply sext_trans; eauto). split; auto.
      destruct x as [[u e]|]; auto. split; [discriminate|]. cbn in C. apply Forall_cons_iff in C. destruct C as [C _].
      destruct (one_frame fr0 s5) as (fr1 & E1 & St & Na & Lo); auto. rewrite E1 in C. cbn in C.
      rewrite St, Na, N0 in C. unfold flags in C. rewrite Lo in C. exact C.
    - apply ret_inv in E3. destruct E3 as [-> ->]. auto. }
  destruct G as [X3 G]. pose proof (Pop _ _ _ E4 X3) as S4.
  destruct r as [[[u e]|]|]; destruct ot as [t|];
    try (apply ret_inv in H; destruct H as [-> ->]; cbn; auto; fail).
  apply bind_inv in H. destruct H as (b & s5 & E5 & H). apply ret_inv in H. destruct H as [-> ->].
  pose proof (keeps_equal _ _ _ _ _ _ E5) as K. split; [congruence|]. destruct b; cbn; auto.
Qed.

Lemma somes_length {A} (l : list (option A)) : forall xs, somes l = Some xs -> List.length xs = List.length l.
Proof.
  induction l as [|[x|] l IH]; intros xs; cbn; try discriminate; [intros H; injection H as <-; reflexivity|].
  destruct (somes l) as [ys|]; [|discriminate]. intros H. injection H as <-. cbn. f_equal. auto.
Qed.
Lemma modules_scoped fuel ms : forall done_ s os s', scopes s = [] -> check_modules fuel ms done_ s = Done os s' ->
  Forall2 module_result ms os.
Proof.
  induction ms as [|m ms IH]; intros done_ s os s' S0 H; cbn [check_modules] in H.
  - apply ret_inv in H. destruct H as [-> _]. constructor.
  - apply bind_inv in H. destruct H as (o & s1 & E1 & H). apply bind_inv in H. destruct H as (os' & s2 & E2 & H).
    apply ret_inv in H. destruct H as [-> ->].
    assert (R : scopes s1 = [] /\ module_result m o).
    { destruct (somes (map (fun d => find_type d done_) (lm_deps m))) as [deps|] eqn:E.
      - eapply module_scoped; eauto. apply somes_length in E. rewrite map_length in E. auto.
      - apply ret_inv in E1. destruct E1 as [-> ->]. cbn. auto. }
    destruct R as [S1 R]. constructor; eauto.
Qed.
Lemma program_good fuel ms tcs s : check_program fuel ms = Done (Some tcs) s ->
  Forall2 (fun m o => match o with
                      | Some e => lm_value m <> None /\ good 0 (List.length (lm_deps m)) [] e = true
                      | None => lm_value m = None
                      end) ms tcs.
Proof.
  unfold check_program. intros H. apply bind_inv in H. destruct H as (os & s1 & E1 & H). apply ret_inv in H.
  destruct H as [E ->]. apply modules_scoped in E1; auto. destruct (somes os) as [rs|] eqn:Es; [|discriminate]. injection E as ->.
  revert rs Es. induction E1 as [|m o ms os R E1 IH]; intros rs Es; cbn in Es.
  - injection Es as <-. constructor.
  - destruct o as [[t o]|]; [|discriminate]. destruct (somes os) as [rs'|]; [|discriminate]. injection Es as <-.
    cbn. constructor; auto.
Qed.

(** ** C46: in a program that the type checker accepts, each module has code if it has a
    body, and every variable its code reads, at any depth of functions and lets, has a value
    there: it is one of the dependencies of the module, the argument of the enclosing
    function, one of the variables that function captured, or a local variable in scope that
    is not read before it is defined. *)
Theorem accepted_in_scope : forall fuel ms tcs s, check_program fuel ms = Done (Some tcs) s ->
  Forall2 (fun m o => match o with
                      | Some e => lm_value m <> None /\ in_scope 0 (List.length (lm_deps m)) [] e
                      | None => lm_value m = None
                      end) ms tcs.
Proof.
  intros fuel ms tcs s H. apply program_good in H. induction H as [|m o ms tcs R H IH]; constructor; auto.
  destruct o; auto. destruct R as [R1 R2]. split; auto. apply good_in_scope; auto.
Qed.

(** Such code compiles, and the compiled code runs like the code; a select without a branch
    does not (see [single_field_select]). *)
Theorem accepted_compiles : forall fuel ms tcs s, check_program fuel ms = Done (Some tcs) s ->
  Forall2 (fun m o => forall e, o = Some e -> branching e ->
             CompileEval.wf 0 (List.length (lm_deps m)) [] e = true /\
             exists c nblocks, CompileModel.compile_code (List.length (lm_deps m)) e = Some (c, nblocks)) ms tcs.
Proof.
  intros fuel ms tcs s H. apply program_good in H. induction H as [|m o ms tcs R H IH]; constructor; auto.
  intros e -> B. destruct R as [_ R].
  assert (W : CompileEval.wf 0 (List.length (lm_deps m)) [] e = true) by (apply good_wf; auto using branching_has_targets).
  split; auto. destruct (CompileCalls.compile_total _ _ W) as (c & nb & E & _). eauto.
Qed.

(** ** Examples *)
Section examples.
  Let n (x : string) : vname := MkVName x false 0.
  Let t (x : string) : vname := MkVName x true 0.
  Local Open Scope string_scope.
  Let unit_type := EDataType false [].
  Let bool_type := EDataType true [(n "true", unit_type); (n "false", unit_type)].

  (** [@ Bool@ = +(Unit@ true, Unit@ false); (Bool@) { Bool@; } not = (Bool@ x) { x.?(true:
      ..., false: ...) }; not]: a recursive type would do as well. *)
  Definition not_program : list lmodule :=
    [MkLModule ["M"] [] None (Some
      (ELet [(t "Bool", inl (Basic 1), bool_type)]
        (ELet [(n "not", inr (EFuncType (EVar (t "Bool")) (EVar (t "Bool"))),
                EFunc (n "x") (EVar (t "Bool"))
                  (ESelect (EVar (n "x"))
                    [(n "true", EUnion (EVar (t "Bool")) (n "false") (EApply false unit_type []));
                     (n "false", EUnion (EVar (t "Bool")) (n "true") (EApply false unit_type []))] None))]
          (EFunc (n "y") (EVar (t "Bool")) (EApply false (EVar (n "not")) [EVar (n "y")])))));
     MkLModule ["N"] [["M"]] None (Some (EModulePath ["M"]))].

  Example not_accepted : exists s, check_program 30 not_program = Done (Some
    [Some (TLet false [TType] (TLet false
       [TFunc [] (TSelect (TVar (Arg 0)) 2 [(0, TUnion 1 (TStruct []))] (TUnion 0 (TStruct [])))]
       (TFunc [Local 1] (TApply (TVar (Static 0)) (TVar (Arg 0))))));
     Some (TVar (Arg 0))]) s.
  Proof. eexists. vm_compute. reflexivity. Qed.

  (** [ *(Unit@ x) Unit@.?(x: Unit@())] over a union with one field is accepted, and has no branch. *)
  Definition single_program : list lmodule :=
    [MkLModule ["M"] [] None (Some
      (ESelect (EUnion (EDataType true [(n "x", unit_type)]) (n "x") (EApply false unit_type []))
        [(n "x", EApply false unit_type [])] None))].
  Definition single_code : tc := TSelect (TUnion 0 (TStruct [])) 1 [] (TStruct []).
  Theorem single_field_select : (exists s, check_program 30 single_program = Done (Some [Some single_code]) s) /\
    exists c nblocks, compile_code 0 single_code = Some (c, nblocks) /\
      fst (interpret (icall 9) c 0 [] [] (mk_st [] 0 [])) = Crash.
  Proof.
    split; [eexists; vm_compute; reflexivity|]. destruct (compile_code 0 single_code) as [[c nb]|] eqn:E; [|vm_compute in E; discriminate].
    exists c, nb. split; auto. vm_compute in E. injection E as <- <-. vm_compute. reflexivity.
  Qed.
End examples.
