(** * What the type checker accepts has its variables in scope: proofs for CheckProps.v. *)
From Coq Require Import String List Arith Bool ZArith Lia.
From Verif Require CodeModel CompileModel CompileEval CompileStatic.
From Verif Require Import KindModel UnusedModel TypeModel CheckModel CheckScope.
Import ListNotations.
Local Open Scope list_scope.
Local Notation tc := CompileModel.tc.
Local Notation var := CodeModel.var.

(** [m] keeps scopes in order, and what it gives is in scope if [es] are. *)
Definition ok {A} (es : list tc) (m : M A) (ex : A -> list tc) : Prop := forall s x s',
  scopes_ok (scopes s) -> Forall (top_good (scopes s)) es -> m s = Done x s' ->
  scopes_ok (scopes s') /\ sext (scopes s) (scopes s') /\ Forall (top_good (scopes s')) (ex x).

Definition none {A} (x : A) : list tc := [].
Definition one (o : option (nat * tc)) : list tc := match o with Some (_, e) => [e] | None => [] end.

Lemma tops_ext sc sc' es : sext sc sc' -> Forall (top_good sc) es -> Forall (top_good sc') es.
Proof. intros S. apply Forall_impl. intros e. apply top_good_ext; auto. Qed.

Lemma ok_bind {A B} es (m : M A) (k : A -> M B) ex ex' : ok es m ex -> (forall x, ok (ex x ++ es) (k x) ex') -> ok es (bind m k) ex'.
Proof.
  intros Hm Hk s y s' O G H. apply bind_inv in H. destruct H as (x & s1 & E & H).
  destruct (Hm _ _ _ O G E) as (O1 & S1 & G1). assert (G' : Forall (top_good (scopes s1)) (ex x ++ es)).
  { apply Forall_app. split; auto. eapply tops_ext; eauto. }
  destruct (Hk x _ _ _ O1 G' H) as (O2 & S2 & G2). split; auto. split; auto. eapply sext_trans; eauto.
Qed.
Lemma ok_ret {A} es (x : A) ex : (forall sc, Forall (top_good sc) es -> Forall (top_good sc) (ex x)) -> ok es (ret x) ex.
Proof. intros H s y s' O G R. apply ret_inv in R. destruct R as [-> ->]. auto using sext_refl. Qed.
Lemma ok_and_then {A B} es (m : M (option A)) (k : A -> M (option B)) ex ex' : ok es m ex -> ex' None = [] ->
  (forall x, ok (ex (Some x) ++ es) (k x) ex') -> ok es (and_then m k) ex'.
Proof.
  intros Hm Hn Hk. unfold and_then. eapply ok_bind; [exact Hm|]. intros [x|]; auto. apply ok_ret. rewrite Hn. auto.
Qed.
Lemma ok_keeps {A} es (m : M A) : keeps m -> ok es m none.
Proof. intros K s x s' O G H. rewrite (K _ _ _ H). repeat split; auto using sext_refl. constructor. Qed.
Lemma ok_weaken {A} es (m : M A) ex : ok [] m ex -> ok es m ex.
Proof. intros H s x s' O G E. apply (H _ _ _ O (Forall_nil _) E). Qed.
Lemma ok_none {A} es (m : M A) ex : ok es m ex -> ok es m none.
Proof. intros H s x s' O G E. destruct (H _ _ _ O G E) as (A1 & A2 & A3). repeat split; auto. constructor. Qed.

Lemma ok_post {A} es (m : M A) ex : keeps m ->
  (forall s x s', m s = Done x s' -> incl (ex x) (CompileModel.TType :: es)) -> ok es m ex.
Proof.
  intros K H s x s' O G E. rewrite (K _ _ _ E). split; [auto|]. split; [apply sext_refl|].
  apply Forall_forall. intros e He. destruct (H _ _ _ E _ He) as [<-|Hi]; [destruct (scopes s); reflexivity|].
  rewrite Forall_forall in G. auto.
Qed.
Lemma ok_incl {A} es (x : A) ex : incl (ex x) (CompileModel.TType :: es) -> ok es (ret x) ex.
Proof. intros H. apply ok_post; [apply keeps_ret|]. intros s y s' E. apply ret_inv in E. destruct E as [-> _]. auto. Qed.
Lemma ok_bad {A} es (ex : A -> list tc) : ok es bad ex.
Proof. intros s x s' _ _ H. discriminate. Qed.
Lemma ok_more {A} es (ex : A -> list tc) : ok es (fun _ => More) ex.
Proof. intros s x s' _ _ H. discriminate. Qed.
Lemma ok_fail {A} es (ex : option A -> list tc) : ex None = [] -> ok es (ret None) ex.
Proof. intros H. apply ok_incl. rewrite H. intros e []. Qed.

(** [t <- m ;; ...] where [m] only looks at types. *)
Ltac look := eapply ok_bind; [apply ok_keeps; auto with keeps|]; intros ?; cbn [none app].

Definition opts (os : list (option (nat * tc))) : list tc := concat (map one os).
Lemma opts_somes os xs : somes os = Some xs -> opts os = map snd xs.
Proof.
  revert xs. induction os as [|o os IH]; intros xs H; cbn in H; [injection H as <-; reflexivity|].
  destruct o as [[t e]|]; [|discriminate]. destruct (somes os) as [ys|]; [|discriminate]. injection H as <-.
  unfold opts in *. cbn. rewrite (IH ys); auto.
Qed.
Lemma somes_length {A} (os : list (option A)) : forall xs, somes os = Some xs -> List.length xs = List.length os.
Proof.
  induction os as [|o os IH]; intros xs H; cbn in H; [injection H as <-; reflexivity|].
  destruct o as [x|]; [|discriminate]. destruct (somes os) as [ys|]; [|discriminate]. injection H as <-.
  cbn. f_equal. auto.
Qed.

(** Applying a poly or an instance gives the same expression, or a type. *)
Lemma poly_apply_snd f p a s q s' : poly_apply f p a s = Done (Some q) s' -> snd q = snd p \/ snd q = CompileModel.TType.
Proof.
  unfold poly_apply. intros H. apply bind_inv in H. destruct H as (k & s1 & _ & H). destruct k as [n|ex k].
  - apply bind_inv in H. destruct H as (o & s2 & _ & H). destruct o as [v|]; [|discriminate].
    apply bind_inv in H. destruct H as (pk & s3 & _ & H). apply bind_inv in H. destruct H as (d & s4 & _ & H).
    destruct d; try discriminate. apply and_then_inv in H. destruct H as [[_ H]|(x & s5 & _ & H)]; [discriminate|].
    apply bind_inv in H. destruct H as (y & s6 & _ & H). apply bind_inv in H. destruct H as (z & s7 & _ & H).
    apply ret_inv in H. destruct H as [H _]. injection H as ->. auto.
  - apply bind_inv in H. destruct H as (k' & s2 & _ & H). destruct (kinds_equal ex k'); [|discriminate].
    apply bind_inv in H. destruct H as (o & s3 & _ & H). destruct o as [v|]; [|discriminate].
    apply bind_inv in H. destruct H as (t & s4 & _ & H). apply ret_inv in H. destruct H as [H _]. injection H as ->. auto.
Qed.
Lemma apply_vars_snd f : forall vars p s q s', apply_vars f vars p s = Done (Some q) s' -> snd q = snd p \/ snd q = CompileModel.TType.
Proof.
  induction vars as [|[x [v|]] vars IH]; intros p s q s' H; cbn [apply_vars] in H; [| |discriminate].
  - apply ret_inv in H. destruct H as [H _]. injection H as ->. auto.
  - apply bind_inv in H. destruct H as (t & s1 & _ & H). apply and_then_inv in H. destruct H as [[_ H]|(p' & s2 & E & H)]; [discriminate|].
    apply IH in H. apply poly_apply_snd in E. destruct H as [->|]; auto.
Qed.
Lemma infer_args_snd f vars xs ys p s q s' : infer_args f vars xs ys p s = Done (Some q) s' -> snd q = snd p \/ snd q = CompileModel.TType.
Proof.
  unfold infer_args. destruct (_ =? _); [|discriminate]. intros H. apply bind_inv in H. destruct H as (r & s1 & _ & H).
  destruct (snd r); [|discriminate]. eapply apply_vars_snd; eauto.
Qed.
Lemma same_incl (o : option (nat * tc)) (p : nat * tc) es : In (snd p) es ->
  (forall q, o = Some q -> snd q = snd p \/ snd q = CompileModel.TType) -> incl (one o) (CompileModel.TType :: es).
Proof.
  intros I H e He. destruct o as [[t e']|]; [|destruct He]. destruct He as [<-|[]].
  destruct (H _ eq_refl) as [E|E]; cbn in E; rewrite E; cbn; auto.
Qed.
Lemma poly_apply_ok f p a es : In (snd p) es -> ok es (poly_apply f p a) one.
Proof. intros I. apply ok_post; [auto with keeps|]. intros s x s' E. eapply same_incl; eauto. intros q ->. eapply poly_apply_snd; eauto. Qed.
Lemma infer_args_ok f vars xs ys p es : In (snd p) es -> ok es (infer_args f vars xs ys p) one.
Proof. intros I. apply ok_post; [auto with keeps|]. intros s x s' E. eapply same_incl; eauto. intros q ->. eapply infer_args_snd; eauto. Qed.

Lemma top_apply sc g a : top_good sc g -> top_good sc a -> top_good sc (CompileModel.TApply g a).
Proof. destruct sc; cbn; intros -> ->; reflexivity. Qed.
Lemma top_struct sc es : Forall (top_good sc) es -> top_good sc (CompileModel.TStruct es).
Proof. destruct sc; cbn; intros F; apply forallb_forall; apply Forall_forall; auto. Qed.
Lemma top_list sc es : Forall (top_good sc) es -> top_good sc (CompileModel.TList es).
Proof. destruct sc; cbn; intros F; apply forallb_forall; apply Forall_forall; auto. Qed.
Lemma top_union sc t e : top_good sc e -> top_good sc (CompileModel.TUnion t e).
Proof. destruct sc; cbn; auto. Qed.
Lemma top_access sc k e t : top_good sc e -> top_good sc (CompileModel.TAccess k e t).
Proof. destruct sc; cbn; auto. Qed.

Lemma F_in (P : tc -> Prop) es e : Forall P es -> In e es -> P e.
Proof. intros F. apply Forall_forall; auto. Qed.
Ltac inn := cbn; rewrite ?in_app_iff; cbn; auto 10.

(** ** Local variables *)
Lemma push_locals_spec : forall l s s' fr r, scopes s = fr :: r -> push_locals l s = Done tt s' ->
  exists new, scopes s' = MkFrame (f_statics fr) (f_args fr) (f_locals fr ++ new) (f_allocated fr + List.length l) (f_captured fr) :: r /\
    types s' = types s /\ map sv_name new = map (fun p => Plain (fst p)) l /\ map sv_type new = map snd l /\
    Forall (fun v => sv_used v = false) new /\ placed CodeModel.Local (f_allocated fr) new.
Proof.
  induction l as [|[x t] l IH]; intros s s' fr r E H; cbn [push_locals] in H.
  - apply ret_inv in H. destruct H as [_ ->]. exists []. rewrite app_nil_r. cbn. rewrite Nat.add_0_r, E. destruct fr; auto 10.
  - apply bind_inv in H. destruct H as ([] & s1 & E1 & H). unfold push_local, on_frame in E1. rewrite E in E1. injection E1 as <-.
    apply IH with (2 := eq_refl) in H || (eapply IH in H; [|reflexivity]). destruct H as (new & A & B & C & D & F & G). cbn in *.
    exists (MkVar (Plain x) t false (Some (CodeModel.Local (f_allocated fr))) :: new). cbn. rewrite <- app_assoc in A. cbn in A.
    rewrite A. rewrite <- Nat.add_succ_comm. split; [reflexivity|]. split; [auto|]. split; [congruence|]. split; [congruence|]. auto.
Qed.

Lemma last_app_one {A} (l : list A) x d : last (l ++ [x]) d = x.
Proof. induction l as [|y l IH]; cbn; auto. destruct (l ++ [x]) eqn:E; auto. destruct l; discriminate. Qed.

Lemma pop_locals_spec : forall n s s' fr r l m k, scopes s = fr :: r -> f_locals fr = l ++ m -> List.length m = n ->
  Forall (fun v => is_value v = true) m -> f_allocated fr = k + n -> pop_locals n s = Done tt s' ->
  scopes s' = MkFrame (f_statics fr) (f_args fr) l k (f_captured fr) :: r /\ types s' = types s.
Proof.
  induction n as [|n IH]; intros s s' fr r l m k E El Lm V Ek H; cbn [pop_locals] in H.
  - apply ret_inv in H. destruct H as [_ ->]. destruct m; [|discriminate]. rewrite app_nil_r in El. rewrite E. destruct fr; cbn in *.
    rewrite El, Ek, Nat.add_0_r. auto.
  - apply bind_inv in H. destruct H as ([] & s1 & E1 & H). unfold pop_local, on_frame in E1. rewrite E in E1. injection E1 as <-.
    destruct (exists_last (l := m)) as (m' & v & ->). { intros ->. discriminate. }
    rewrite El in H. rewrite app_assoc, removelast_last, last_app_one in H. apply Forall_app in V. destruct V as [V1 V2].
    rewrite app_length in Lm. cbn in Lm.
    apply IH with (l := l) (m := m') (k := k) (2 := eq_refl) (1 := eq_refl) in H; auto; cbn; auto; try lia.
    apply Forall_cons_iff in V2. destruct V2 as [V2 _]. unfold is_value in V2. destruct v as [? ? ? [|]]; [|discriminate]. lia.
Qed.

Lemma placed_is_value mk : forall l i, placed mk i l -> Forall (fun v => is_value v = true) l.
Proof. induction l as [|v l IH]; intros i; cbn; auto. intros [H1 H2]. constructor; eauto. unfold is_value. rewrite H1. auto. Qed.
Lemma values_app l m : values (l ++ m) = values l ++ values m.
Proof. apply filter_app. Qed.
Lemma F2_app_split {A} (R : A -> A -> Prop) l1 l2 m : Forall2 R (l1 ++ l2) m -> exists m1 m2, m = m1 ++ m2 /\ Forall2 R l1 m1 /\ Forall2 R l2 m2.
Proof. apply F2_app_inv. Qed.

Definition set_types_of (vs : list svar) (ts : list nat) : list svar :=
  map (fun p => MkVar (sv_name (fst p)) (snd p) (sv_used (fst p)) (sv_place (fst p))) (combine vs ts).
Lemma set_types_of_spec vs : forall ts, List.length ts = List.length vs ->
  map sv_name (set_types_of vs ts) = map sv_name vs /\ map sv_type (set_types_of vs ts) = ts /\
  map sv_used (set_types_of vs ts) = map sv_used vs /\ map sv_place (set_types_of vs ts) = map sv_place vs.
Proof.
  unfold set_types_of. induction vs as [|v vs IH]; intros [|t ts] L; cbn in *; try discriminate; auto.
  injection L as L. destruct (IH _ L) as (A & B & C & D). rewrite A, B, C, D. auto.
Qed.
Lemma placed_places mk : forall l l' i, map sv_place l' = map sv_place l -> placed mk i l -> placed mk i l'.
Proof.
  induction l as [|v l IH]; intros [|v' l'] i E P; cbn in *; try discriminate; auto. injection E as E1 E2. destruct P. split; [congruence|eauto].
Qed.
Lemma set_top_types_spec ts s s' fr r l m : scopes s = fr :: r -> f_locals fr = l ++ m -> List.length ts = List.length m ->
  set_top_types ts s = Done tt s' ->
  scopes s' = MkFrame (f_statics fr) (f_args fr) (l ++ set_types_of m ts) (f_allocated fr) (f_captured fr) :: r /\ types s' = types s.
Proof.
  intros E El L H. unfold set_top_types, on_frame in H. rewrite E in H. injection H as <-. cbn. rewrite El, app_length, L.
  replace (List.length l + List.length m - List.length m) with (List.length l) by lia.
  rewrite firstn_app, Nat.sub_diag, firstn_all, skipn_app, Nat.sub_diag, skipn_all. cbn. rewrite app_nil_r. auto.
Qed.
Lemma top_locals_spec n s s' vs fr r l m : scopes s = fr :: r -> f_locals fr = l ++ m -> List.length m = n ->
  top_locals n s = Done vs s' -> vs = m /\ s' = s.
Proof.
  intros E El L H. unfold top_locals in H. rewrite E in H. injection H as <- <-. rewrite El, app_length, <- L.
  replace (List.length l + List.length m - List.length m) with (List.length l) by lia.
  rewrite skipn_app, Nat.sub_diag, skipn_all. auto.
Qed.

Lemma below_all_true x y n : List.length y = n -> below (x ++ y) (x ++ repeat true n).
Proof.
  intros L i H. destruct (Nat.lt_ge_cases i (List.length x)) as [Hl|Hl].
  - rewrite app_nth1 in * by lia. auto.
  - rewrite app_nth2 in * by lia. destruct (Nat.lt_ge_cases (i - List.length x) n).
    + clear - H0. revert H0. generalize (i - List.length x). clear. induction n; intros [|j] H; cbn; auto; try lia. apply IHn. lia.
    + rewrite nth_overflow in H by lia. discriminate.
Qed.
Lemma unused_false l : existsb sv_used l = false -> map sv_used l = repeat false (List.length l).
Proof. induction l as [|v l IH]; cbn; auto. intros H. apply orb_false_iff in H. destruct H as [-> H]. rewrite IH; auto. Qed.

Section check.
  Variable module : list string.
  Section parts.
    Variable chk : expr -> M (option (nat * tc)).
    Variable chk_type : expr -> M (option nat).
    Variable f : nat.
    Hypothesis chk_ok : forall e es, ok es (chk e) one.
    Hypothesis type_ok : forall e es, ok es (chk_type e) none.

    Lemma each_ok args : forall es, ok es (each chk args) opts.
    Proof.
      induction args as [|a args IH]; intros es; cbn [each].
      - apply ok_incl. intros e [].
      - eapply ok_bind; [apply chk_ok|]. intros o. eapply ok_bind; [apply IH|]. intros os. apply ok_incl.
        unfold opts. cbn. intros e He. right. rewrite !in_app_iff in *. tauto.
    Qed.
    Lemma each_rev_ok (args : list (vname * expr)) : forall es, ok es (each_rev (fun p => chk (snd p)) args) opts.
    Proof.
      induction args as [|a args IH]; intros es; cbn [each_rev].
      - apply ok_incl. intros e [].
      - eapply ok_bind; [apply IH|]. intros os. eapply ok_bind; [apply chk_ok|]. intros o. apply ok_incl.
        unfold opts. cbn. intros e He. right. rewrite !in_app_iff in *. tauto.
    Qed.

    Lemma apply_args_ok : forall args g es, incl (snd g :: map snd args) es -> ok es (apply_args f g args) one.
    Proof.
      induction args as [|a args IH]; intros g es I; cbn [apply_args].
      - apply ok_incl. destruct g as [t e]. intros x [<-|[]]. right. apply I. left; auto.
      - look. look. destruct x0; try (apply ok_fail; reflexivity).
        eapply ok_and_then; [apply infer_args_ok, I; left; auto|reflexivity|]. intros q.
        look. look. destruct x1; try apply ok_bad.
        intros s y s' O G H. apply (IH _ (CompileModel.TApply (snd q) (snd a) :: one (Some q) ++ es)) in H; auto.
        + cbn [snd]. intros z [<-|Hz]; [left; auto|]. right. apply in_or_app. right. apply I. right. right. auto.
        + constructor; auto. apply top_apply.
          * eapply F_in; [exact G|]. destruct q. cbn. auto.
          * eapply F_in; [exact G|]. apply in_or_app. right. apply I. right. left. auto.
    Qed.

    Lemma check_apply_ok b misc args es : ok es (check_apply module chk f b misc args) one.
    Proof.
      unfold check_apply. eapply ok_bind; [apply chk_ok|]. intros om. eapply ok_bind; [apply each_ok|]. intros os.
      destruct om as [m|]; [|apply ok_fail; reflexivity]. destruct (somes os) as [xs|] eqn:So; [|apply ok_fail; reflexivity].
      apply opts_somes in So. rewrite So. look. look.
      assert (HA : ok (map snd xs ++ one (Some m) ++ es) (apply_args f m xs) one).
      { apply apply_args_ok. intros e [<-|He]; rewrite !in_app_iff; auto. right. left. destruct m. left. auto. }
      destruct b; auto. destruct x0; auto. look. look.
      match goal with |- ok _ (match ?d with _ => _ end) _ => destruct d end; try (look; look;
        match goal with |- ok _ (match ?d with _ => _ end) _ => destruct d end; auto;
        match goal with |- ok _ (match ?d with _ => _ end) _ => destruct d end; auto;
        (eapply ok_and_then; [apply infer_args_ok; inn; right; left; destruct m; left; auto|reflexivity|]; intros q;
         intros s y s' O G H; apply ret_inv in H; destruct H as [-> ->]; split; [auto|]; split; [apply sext_refl|];
         constructor; auto; apply top_struct; rewrite !Forall_app in G; tauto)).
      destruct xs as [|[t e] [|]]; try (apply ok_fail; reflexivity). destruct (belongs module path); [|apply ok_fail; reflexivity].
      look. apply ok_incl. intros y [<-|[]]. inn.
    Qed.

    Lemma for_type_ok e es : ok es (for_type chk e) none.
    Proof.
      intros s y s' O G H. unfold for_type in H. apply bind_inv in H. destruct H as ([] & s1 & E1 & H).
      unfold push_frame in E1. injection E1 as <-. apply bind_inv in H. destruct H as (o & s2 & E2 & H).
      apply chk_ok with (es := []) in E2; [|cbn; split; [split; cbn; auto|split; [|auto]]|constructor].
      2:{ unfold captured_ok. cbn. destruct (scopes s); auto. }
      destruct E2 as (O2 & S2 & _). cbn [scopes] in S2. apply bind_inv in H. destruct H as (fr & s3 & E3 & H).
      unfold pop_frame in E3. inversion S2 as [|? fr' ? r' X S2' E4 E5]; subst. rewrite <- E5 in E3. injection E3 as <- <-.
      apply ret_inv in H. destruct H as [-> ->]. cbn. rewrite <- E5 in O2. destruct O2 as (_ & _ & O2). repeat split; auto. constructor.
    Qed.

    Lemma let_types_ok : forall bs seen es, ok es (let_types chk_type f seen bs) none.
    Proof.
      induction bs as [|[[x [k|t]] e] bs IH]; intros seen es; cbn [let_types].
      - apply ok_incl. intros z [].
      - eapply ok_bind; [apply ok_keeps; apply keeps_bind; auto with keeps|]. intros o.
        eapply ok_bind; [apply ok_keeps; destruct o; auto with keeps|]. intros b. eapply ok_bind; [apply IH|]. intros p.
        apply ok_incl. intros z [].
      - eapply ok_bind; [apply type_ok|]. intros o.
        eapply ok_bind; [apply ok_keeps; destruct o; auto with keeps|]. intros b. eapply ok_bind; [apply IH|]. intros p.
        apply ok_incl. intros z [].
    Qed.
    Lemma let_types_len : forall bs seen s p s', let_types chk_type f seen bs s = Done p s' -> fst p = true ->
      List.length (snd p) = List.length bs.
    Proof.
      induction bs as [|[[x kt] e] bs IH]; intros seen s p s' H T; cbn [let_types] in H.
      - apply ret_inv in H. destruct H as [-> _]. auto.
      - apply bind_inv in H. destruct H as (o & s1 & E1 & H). apply bind_inv in H. destruct H as (b & s2 & E2 & H).
        apply bind_inv in H. destruct H as (q & s3 & E3 & H). apply ret_inv in H. destruct H as [-> _]. cbn in *.
        apply andb_prop in T. destruct T as [T1 T2]. apply andb_prop in T1. destruct T1 as [T1 _].
        destruct o as [t|]; [cbn; f_equal; eapply IH; eauto|]. apply ret_inv in E2. destruct E2; congruence.
    Qed.

    Definition defs (o : option (list (nat * tc))) : list tc := match o with Some ds => map snd ds | None => [] end.
    Lemma let_defs_ok : forall bs ts es, ok es (let_defs chk f bs ts) defs.
    Proof.
      induction bs as [|[[x kt] e] bs IH]; intros [|t ts] es; cbn [let_defs]; try (apply ok_incl; intros z []).
      eapply ok_and_then; [apply chk_ok|reflexivity|]. intros d.
      eapply ok_bind; [apply ok_keeps; destruct kt; auto with keeps|]. intros b. cbn [none app].
      destruct b; [|apply ok_incl; intros z []]. eapply ok_and_then; [apply IH|reflexivity|]. intros ds.
      apply ok_incl. cbn [defs map]. intros z [<-|Hz]; inn. destruct d. cbn. auto.
    Qed.
    Lemma let_defs_len : forall bs ts s ds s', let_defs chk f bs ts s = Done (Some ds) s' -> List.length ts = List.length bs ->
      List.length ds = List.length bs.
    Proof.
      induction bs as [|[[x kt] e] bs IH]; intros [|t ts] s ds s' H L; cbn [let_defs] in H; try discriminate.
      - apply ret_inv in H. destruct H as [H _]. injection H as ->. auto.
      - apply and_then_inv in H. destruct H as [[_ H]|(d & s1 & _ & H)]; [discriminate|].
        apply bind_inv in H. destruct H as (b & s2 & _ & H). destruct b; [|discriminate].
        apply and_then_inv in H. destruct H as [[_ H]|(ds' & s3 & E & H)]; [discriminate|].
        apply ret_inv in H. destruct H as [H _]. injection H as ->. cbn. f_equal. eapply IH; eauto.
    Qed.
    Lemma let_assign_len : forall bs ts ds s r s', let_assign f bs ts ds s = Done r s' -> List.length ts = List.length bs ->
      List.length ds = List.length bs -> List.length r = List.length bs.
    Proof.
      induction bs as [|[[x kt] e] bs IH]; intros [|t ts] [|d ds] s r s' H L1 L2; cbn [let_assign] in H; try discriminate.
      - apply ret_inv in H. destruct H as [-> _]. auto.
      - apply bind_inv in H. destruct H as (t' & s1 & _ & H). apply bind_inv in H. destruct H as (r' & s2 & E & H).
        apply ret_inv in H. destruct H as [-> _]. cbn. f_equal. eapply IH; eauto.
    Qed.

    (** The scopes during and after a let. *)
    Lemma let_frames fr r new k sc2 : frame_ok fr -> captured_ok fr r -> scopes_ok r ->
      placed CodeModel.Local (f_allocated fr) new -> List.length new = k ->
      scopes_ok (MkFrame (f_statics fr) (f_args fr) (f_locals fr ++ new) (f_allocated fr + k) (f_captured fr) :: r) /\
      (sext (MkFrame (f_statics fr) (f_args fr) (f_locals fr ++ new) (f_allocated fr + k) (f_captured fr) :: r) sc2 ->
       scopes_ok sc2 ->
       exists fr2 r2 l2 n2, sc2 = fr2 :: r2 /\ f_locals fr2 = l2 ++ n2 /\ Forall2 vle (f_locals fr) l2 /\ Forall2 vle new n2 /\
         f_allocated fr2 = f_allocated fr + k /\ Forall (fun v => is_value v = true) n2 /\ placed CodeModel.Local (f_allocated fr) n2 /\
         (let fr' := MkFrame (f_statics fr2) (f_args fr2) l2 (f_allocated fr) (f_captured fr2) in
          scopes_ok (fr' :: r2) /\ sext (fr :: r) (fr' :: r2) /\
          flags fr2 = flags fr' ++ map sv_used n2)).
    Proof.
      intros [F1 F2 F3 F4] C O P L. assert (Vn : values new = new) by (eapply placed_values; eauto). split.
      - split; [|split; auto]. split; cbn; auto.
        + rewrite values_app, Vn. apply placed_app. cbn. rewrite <- F4. auto.
        + rewrite values_app, app_length, Vn. lia.
      - intros S O2. inversion S as [|? fr2 ? r2 X S' E1 E2]; subst. destruct X as [X1 X2 X3 X4 X5]. cbn in *.
        apply F2_app_inv in X1. destruct X1 as (l2 & n2 & El & V1 & V2). destruct O2 as ([G1 G2 G3 G4] & C2 & O2).
        assert (Pn : placed CodeModel.Local (f_allocated fr) n2) by (eapply placed_ext; eauto).
        assert (Vn2 : values n2 = n2) by (eapply placed_values; eauto).
        exists fr2, r2, l2, n2. repeat (split; [now eauto using placed_is_value|]).
        rewrite El, values_app, Vn2 in G3, G4. apply placed_app in G3. destruct G3 as [G3 _].
        split; [|split].
        + split; [|split; auto]. split; cbn; auto. rewrite F4. eapply F2_length, values_ext; eauto.
        + constructor; auto. split; auto.
        + unfold flags. cbn. rewrite El, values_app, Vn2, map_app. auto.
    Qed.

    Lemma check_let_ok bs body es : ok es (check_let chk chk_type f bs body) one.
    Proof.
      unfold check_let. intros s y s' O G H. apply bind_inv in H. destruct H as (p & s1 & E1 & H).
      pose proof (let_types_len _ _ _ _ _ E1) as Lp.
      destruct (let_types_ok _ _ es _ _ _ O G E1) as (O1 & S1 & _). clear E1.
      destruct (fst p). 2:{ apply ret_inv in H. destruct H as [-> ->]. repeat split; auto. constructor. }
      specialize (Lp eq_refl). apply bind_inv in H. destruct H as ([] & s2 & E2 & H).
      apply bind_inv in H. destruct H as (o & s3 & E3 & H).
      destruct (scopes s1) as [|fr r] eqn:Sc1.
      { exfalso. destruct bs as [|b bs].
        - cbn in E2. injection E2 as <-. destruct (snd p); [|discriminate]. cbn in E3. injection E3 as <- <-.
          apply bind_inv in H. destruct H as (vs & s4 & E4 & H). unfold top_locals in E4. rewrite Sc1 in E4. discriminate.
        - destruct (snd p) as [|t ts]; [discriminate|]. cbn [map combine push_locals] in E2. apply bind_inv in E2.
          destruct E2 as ([] & s4 & E4 & _). unfold push_local, on_frame in E4. rewrite Sc1 in E4. discriminate. }
      destruct (push_locals_spec _ _ _ _ _ Sc1 E2) as (new & Sc2 & _ & Hn & _ & Hu & Hp).
      set (n := List.length bs) in *.
      assert (Ln : List.length (combine (map (fun b : vname * (kind + expr) * expr => fst (fst b)) bs) (snd p)) = n).
      { rewrite combine_length, map_length, Lp. unfold n. lia. }
      assert (Lnew : List.length new = n). { rewrite <- (map_length sv_name), Hn, map_length. auto. }
      rewrite Ln in Sc2. cbn in O1. destruct O1 as (F1 & C1 & O1).
      destruct (let_frames fr r new n (scopes s3) F1 C1 O1 Hp Lnew) as [OK2 K]. rewrite <- Sc2 in OK2.
      destruct (let_defs_ok _ _ [] _ _ _ OK2 (Forall_nil _) E3) as (O3 & S3 & G3). rewrite Sc2 in S3.
      destruct (K S3 O3) as (fr3 & r3 & l3 & n3 & Sc3 & El3 & V3 & V3' & Al3 & Iv3 & Pl3 & OKp & Sp & Fl3). clear K.
      assert (Ln3 : List.length n3 = n). { rewrite <- Lnew. symmetry. eapply F2_length; eauto. }
      destruct o as [ds|].
      2:{ apply bind_inv in H. destruct H as ([] & s4 & E4 & H). apply ret_inv in H. destruct H as [-> ->].
          destruct (pop_locals_spec _ _ _ _ _ l3 n3 (f_allocated fr) Sc3 El3 Ln3 Iv3 Al3 E4) as [-> _].
          split; [exact OKp|]. split; [|constructor]. eapply sext_trans; [exact S1|exact Sp]. }
      pose proof (let_defs_len _ _ _ _ _ E3 Lp) as Lds.
      apply bind_inv in H. destruct H as (vs & s4 & E4 & H).
      destruct (top_locals_spec _ _ _ _ _ _ _ _ Sc3 El3 Ln3 E4) as [-> ->]. clear E4.
      apply bind_inv in H. destruct H as (ts & s4 & E4 & H). pose proof (let_assign_len _ _ _ _ _ _ E4 Lp Lds) as Lts.
      pose proof (keeps_let_assign _ _ _ _ _ _ _ E4) as Sc4. rewrite Sc3 in Sc4. clear E4.
      apply bind_inv in H. destruct H as ([] & s5 & E5 & H).
      assert (Lt3 : List.length ts = List.length n3) by lia.
      destruct (set_top_types_spec _ _ _ _ _ l3 n3 Sc4 El3 Lt3 E5) as [Sc5 _]. clear E5.
      apply bind_inv in H. destruct H as (vac & s6 & E6 & H).
      assert (Sc6 : scopes s6 = scopes s5). { eapply (keeps_each (vacuous f)); eauto with keeps. } rewrite Sc5 in Sc6. clear E6.
      apply bind_inv in H. destruct H as (ob & s7 & E7 & H).
      destruct (set_types_of_spec n3 ts) as (N1 & N2 & N3 & N4); [lia|].
      set (fr' := MkFrame (f_statics fr3) (f_args fr3) l3 (f_allocated fr) (f_captured fr3)) in *.
      destruct OKp as (OKp1 & OKp2 & OKp3).
      destruct (let_frames fr' r3 (set_types_of n3 ts) n (scopes s7)) as [OK6 K]; auto.
      { eapply placed_places; eauto. }
      { rewrite <- (map_length sv_name), N1, map_length. auto. }
      cbn [f_statics f_args f_locals f_allocated f_captured fr'] in OK6, K. rewrite Al3 in Sc6. rewrite <- Sc6 in OK6.
      assert (scopes_ok (scopes s7) /\ sext (scopes s6) (scopes s7) /\ Forall (top_good (scopes s7)) (one ob)) as (O7 & S7 & G7).
      { destruct (existsb (fun b => b) vac).
        - apply ret_inv in E7. destruct E7 as [-> ->]. repeat split; auto using sext_refl. constructor.
        - apply (chk_ok body [] _ _ _ OK6 (Forall_nil _) E7). }
      rewrite Sc6 in S7. destruct (K S7 O7) as (fr7 & r7 & l7 & n7 & Sc7 & El7 & V7 & V7' & Al7 & Iv7 & Pl7 & OK7 & Sp7 & Fl7). clear K.
      assert (Ln7 : List.length n7 = n). { rewrite <- (F2_length _ _ _ V7'). rewrite <- (map_length sv_name), N1, map_length. auto. }
      apply bind_inv in H. destruct H as ([] & s8 & E8 & H).
      destruct (pop_locals_spec _ _ _ _ _ l7 n7 (f_allocated fr) Sc7 El7 Ln7 Iv7 Al7 E8) as [Sc8 _].
      cbn [f_allocated fr'] in OK7, Sp7, Fl7. unfold fr' in OK7, Sp7, Fl7. cbn [f_allocated] in OK7, Sp7, Fl7. rewrite <- Sc8 in OK7, Sp7.
      assert (Sall : sext (scopes s) (scopes s8)).
      { eapply sext_trans; [exact S1|]. eapply sext_trans; [exact Sp|exact Sp7]. }
      destruct ob as [[t b]|].
      2:{ apply ret_inv in H. destruct H as [-> ->]. repeat split; auto. constructor. }
      apply ret_inv in H. destruct H as [-> ->]. split; [exact OK7|]. split; [exact Sall|].
      constructor; [|constructor]. rewrite Sc8. cbn [top_good f_statics f_args good].
      rewrite map_length, Lds. fold n. apply andb_true_iff. split.
      - assert (Sx : sext (fr' :: r3) (scopes s8)) by exact Sp7. rewrite Sc8 in Sx.
        inversion Sx as [|? ? ? ? X]; subst. destruct (flags_ext _ _ (x_locals _ _ X)) as [Lf Bf].
        apply forallb_forall. intros e He. cbn [defs] in G3. pose proof (F_in _ _ _ G3 He) as Ge.
        rewrite Sc3 in Ge. cbn [top_good] in Ge. rewrite Fl3 in Ge.
        assert (As : List.length (f_args fr7) = List.length (f_args fr3)) by apply (args_ext _ _ X). cbn in As. rewrite As.
        eapply good_mono; [| | |exact Ge]; [apply (statics_ext _ _ X)| |].
        + rewrite !app_length, repeat_length, map_length, Lf, Ln3. auto.
        + intros i Hi. assert (Hi2 : nth i (flags fr' ++ repeat (existsb sv_used n3) n) false = true).
          { destruct (existsb sv_used n3) eqn:Ex.
            - eapply below_all_true; [|exact Hi]. rewrite map_length. auto.
            - rewrite (unused_false _ Ex), Ln3 in Hi. auto. }
          revert Hi2. apply below_app; auto.
      - pose proof (F_in _ _ b G7 (or_introl eq_refl)) as Gb. rewrite Sc7 in Gb. cbn [top_good] in Gb. rewrite Fl7 in Gb.
        eapply good_mono; [| | |exact Gb]; auto.
        + rewrite !app_length, repeat_length, map_length. lia.
        + apply below_all_true. rewrite map_length. auto.
    Qed.

    (** *** Selects *)
    Lemma sorted_app : forall l lo x, CompileEval.sorted_from lo l = true -> Forall (fun y => y < x) l -> lo <= x ->
      CompileEval.sorted_from lo (l ++ [x]) = true.
    Proof.
      induction l as [|y l IH]; intros lo x S F L; cbn in *.
      - rewrite andb_true_r. apply Nat.leb_le. auto.
      - apply andb_prop in S. destruct S as [S1 S2]. apply Forall_cons_iff in F. destruct F. rewrite S1. apply IH; auto; lia.
    Qed.

    Lemma sorted_cut : forall l lo x, CompileEval.sorted_from lo (l ++ [x]) = true -> CompileEval.sorted_from lo l = true.
    Proof.
      induction l as [|y l IH]; intros lo x S; cbn in *; auto. apply andb_prop in S. destruct S as [-> S]. eauto.
    Qed.

    Definition targets (p : select * list (vname * expr)) : list tc := map snd (s_targets (fst p)).
    Lemma select_fields_ok : forall fields i choices d a es, incl (map snd (s_targets a)) es ->
      ok es (select_fields chk f i fields choices d a) targets.
    Proof.
      induction fields as [|[x t] fields IH]; intros i choices d a es I; cbn [select_fields].
      - apply ok_incl. cbn. unfold targets. cbn. intros e He. right. auto.
      - assert (Hm : forall c, ok es (select_fields chk f (S i) fields c d
                   (if d then MkSelect (s_ok a) true (s_type a) (s_targets a)
                    else MkSelect false (s_default a) (s_type a) (s_targets a))) targets).
        { intros c. apply IH. destruct d; auto. }
        destruct choices as [|[y e] cr]; auto. destruct (vname_equal y x); auto.
        eapply ok_bind; [apply chk_ok|]. intros r.
        eapply ok_bind with (ex := fun a => map snd (s_targets a)).
        + destruct r as [[u b]|]; [|apply ok_incl; cbn; intros z Hz; right; auto].
          destruct (s_type a) as [w|].
          * look. apply ok_incl. cbn. rewrite map_app. intros z Hz. apply in_app_or in Hz. destruct Hz as [Hz|[<-|[]]]; cbn; auto.
          * apply ok_incl. cbn. rewrite map_app. intros z Hz. apply in_app_or in Hz. destruct Hz as [Hz|[<-|[]]]; cbn; auto.
        + intros a'. apply IH. intros z Hz. apply in_or_app. auto.
    Qed.
    Lemma select_fields_sorted : forall fields i choices d a s p s', select_fields chk f i fields choices d a s = Done p s' ->
      CompileEval.sorted_from 0 (map fst (s_targets a)) = true -> Forall (fun y => y < i) (map fst (s_targets a)) ->
      CompileEval.sorted_from 0 (map fst (s_targets (fst p))) = true /\ Forall (fun y => y < i + List.length fields) (map fst (s_targets (fst p))).
    Proof.
      induction fields as [|[x t] fields IH]; intros i choices d a s p s' H So F; cbn [select_fields] in H.
      - apply ret_inv in H. destruct H as [-> _]. cbn. rewrite Nat.add_0_r. auto.
      - cbn [List.length]. rewrite Nat.add_succ_r, <- Nat.add_succ_l. assert (F' : Forall (fun y => y < S i) (map fst (s_targets a))) by (eapply Forall_impl; [|exact F]; cbn; lia).
        assert (Hm : forall c, select_fields chk f (S i) fields c d
                   (if d then MkSelect (s_ok a) true (s_type a) (s_targets a)
                    else MkSelect false (s_default a) (s_type a) (s_targets a)) s = Done p s' ->
                   CompileEval.sorted_from 0 (map fst (s_targets (fst p))) = true /\ Forall (fun y => y < S i + List.length fields) (map fst (s_targets (fst p)))).
        { intros c Hc. apply IH in Hc; auto; destruct d; auto. }
        destruct choices as [|[y e] cr]; [apply (Hm _ H)|]. destruct (vname_equal y x); [|apply (Hm _ H)]. clear Hm.
        apply bind_inv in H. destruct H as (r & s1 & _ & H). apply bind_inv in H. destruct H as (a' & s2 & E & H).
        assert (Ha : s_targets a' = s_targets a \/ exists b, s_targets a' = s_targets a ++ [(i, b)]).
        { destruct r as [[u b]|]; [|apply ret_inv in E; destruct E as [-> _]; auto].
          destruct (s_type a); [apply bind_inv in E; destruct E as (q & s3 & _ & E)|]; apply ret_inv in E; destruct E as [-> _]; cbn; eauto. }
        apply IH in H; auto; destruct Ha as [-> |[b ->]]; auto; rewrite map_app; cbn.
        + apply sorted_app; auto. lia.
        + apply Forall_app. split; auto.
    Qed.

    Lemma forallb_lt n l : Forall (fun y => y < n) l -> forallb (fun t => t <? n) l = true.
    Proof. intros F. apply forallb_forall. intros y Hy. apply Nat.ltb_lt. rewrite Forall_forall in F. apply (F _ Hy). Qed.
    Lemma top_select sc c n ts d : top_good sc c -> Forall (top_good sc) (map snd ts) -> top_good sc d ->
      CompileEval.sorted_from 0 (map fst ts) = true -> forallb (fun t => t <? n) (map fst ts) = true -> top_good sc (CompileModel.TSelect c n ts d).
    Proof.
      assert (H : forall p l, Forall (fun e => p e = true) (map snd l) -> forallb (fun q : nat * tc => p (snd q)) l = true).
      { intros p l F. apply forallb_forall. intros q Hq. rewrite Forall_forall in F. apply F. apply in_map. auto. }
      intros A B C D E. destruct sc; cbn in *; rewrite A, C, D, E, (H _ _ B); reflexivity.
    Qed.

    Lemma check_select_ok c choices d es : ok es (check_select chk f c choices d) one.
    Proof.
      unfold check_select. eapply ok_and_then; [apply chk_ok|reflexivity|]. intros c'. look. look.
      destruct x0 as [[|] fields| | | | | | | ]; try (apply ok_fail; reflexivity).
      eapply ok_bind with (ex := fun o => match o with Some r => one r | None => [] end).
      { destruct d; [|apply ok_incl; intros z []]. eapply ok_bind; [apply chk_ok|]. intros r. apply ok_incl. intros z Hz. inn. }
      intros dflt. cbv zeta.
      match goal with |- ok ?es (bind (select_fields chk f 0 fields choices ?hd ?a0) ?k) one => set (hd_ := hd); set (a0_ := a0); set (es0 := es) end.
      intros s y s' O G H. apply bind_inv in H. destruct H as ([a lft] & s1 & E & H).
      destruct (select_fields_sorted _ _ _ _ _ _ _ _ E eq_refl (Forall_nil _)) as [So Ro].
      assert (I0 : incl (map snd (s_targets a0_)) es0) by (intros z []).
      destruct (select_fields_ok _ _ _ _ _ _ I0 _ _ _ O G E) as (O1 & S1 & G1). unfold targets in G1. cbn [fst] in *.
      pose proof (tops_ext _ _ _ S1 G) as G2.
      assert (Gc : top_good (scopes s1) (snd c')). { eapply F_in; [exact G2|]. unfold es0. apply in_or_app. right. apply in_or_app. left. destruct c'. cbn. auto. }
      destruct (s_ok a && match lft with [] => true | _ => false end)%bool.
      2:{ apply ret_inv in H. destruct H as [-> ->]. split; [auto|]. split; [auto|]. constructor. }
      destruct (s_type a) as [t|]; [|discriminate].
      destruct (s_default a).
      - destruct dflt as [[[dt b]|]|]; try discriminate. apply ret_inv in H. destruct H as [-> ->]. split; [auto|]. split; [auto|].
        repeat constructor. apply top_select; auto; [eapply F_in; [exact G2|]; unfold es0; cbn; auto|apply forallb_lt; auto].
      - destruct (rev (s_targets a)) as [|[i b] r] eqn:Er; [discriminate|].
        assert (Et : s_targets a = rev r ++ [(i, b)]). { rewrite <- (rev_involutive (s_targets a)), Er. reflexivity. }
        apply ret_inv in H. destruct H as [-> ->]. split; [auto|]. split; [auto|].
        rewrite Et, map_app in G1, So, Ro. cbn in G1, So, Ro. apply Forall_app in Ro. apply Forall_app in G1. destruct G1 as [G1 Gb]. apply Forall_cons_iff in Gb.
        repeat constructor. apply top_select; auto; [apply Gb| |apply forallb_lt, Ro]. eapply sorted_cut; eauto.
    Qed.

    (** *** Copies *)
    Lemma copy_fields_ok : forall fields args, keeps (copy_fields f fields args) /\
      forall s r s', copy_fields f fields args s = Done r s' ->
        forall e, In (Some e) (snd r) -> exists x t, In (x, Some (t, e)) args.
    Proof.
      intros fields args. split; [auto with keeps|]. revert args.
      induction fields as [|[x t] fields IH]; intros args s r s' H e He; cbn [copy_fields] in H.
      - apply ret_inv in H. destruct H as [-> _]. destruct He.
      - destruct args as [|[y a] args].
        + apply bind_inv in H. destruct H as (q & s1 & E & H). apply ret_inv in H. destruct H as [-> _]. cbn in He.
          destruct He as [He|He]; [discriminate|]. destruct (IH _ _ _ _ E _ He) as (? & ? & []).
        + destruct (vname_equal y x).
          * destruct a as [[u b]|]; [|discriminate]. apply bind_inv in H. destruct H as (q & s1 & E & H).
            apply bind_inv in H. destruct H as (q' & s2 & E' & H). apply ret_inv in H. destruct H as [-> _]. cbn in He.
            destruct He as [He|He]; [injection He as <-; exists y, u; left; auto|].
            destruct (IH _ _ _ _ E' _ He) as (? & ? & Hi). eexists; eexists; right; eauto.
          * apply bind_inv in H. destruct H as (q & s1 & E & H). apply ret_inv in H. destruct H as [-> _]. cbn in He.
            destruct He as [He|He]; [discriminate|]. apply (IH _ _ _ _ E _ He).
    Qed.

    Lemma top_copy sc src fs : top_good sc src -> (forall e, In (Some e) fs -> top_good sc e) -> top_good sc (CompileModel.TCopy src fs).
    Proof.
      destruct sc; cbn; intros -> H; cbn; apply forallb_forall; intros [e|] He; auto; apply H; auto.
    Qed.
    Lemma somes_in {A} (os : list (option A)) : forall xs, somes os = Some xs -> forall x, In (Some x) os -> In x xs.
    Proof.
      induction os as [|o os IH]; intros xs H x Hx; [destruct Hx|]. cbn in H. destruct o as [z|]; [|discriminate].
      destruct (somes os) as [ys|]; [|discriminate]. injection H as <-. destruct Hx as [Hx|Hx]; [injection Hx as <-; left; auto|right; eauto].
    Qed.
  End parts.

  Lemma data_fields_ok chk_type f : (forall e es, ok es (chk_type e) none) -> forall l seen es, ok es (data_fields chk_type f seen l) none.
  Proof.
    intros T. induction l as [|[x e] l IH]; intros seen es; cbn [data_fields].
    - apply ok_incl. intros z [].
    - eapply ok_and_then; [apply T|reflexivity|]. intros t. look.
      destruct (x0 && negb (repeated x seen))%bool; [|apply ok_fail; reflexivity].
      eapply ok_and_then; [apply IH|reflexivity|]. intros ts. apply ok_incl. intros z [].
  Qed.

  (** Checking a function: the scope of its body. *)
  Lemma new_frame_ok s args c : scopes_ok (scopes s) -> (c = None \/ c = Some []) ->
    scopes_ok (new_frame c args :: scopes s).
  Proof.
    intros O Hc. split; [split; cbn; auto|split; auto].
    - generalize 0. induction args as [|[x t] args IH]; intros i; cbn; auto.
    - unfold captured_ok. cbn. destruct (scopes s); destruct Hc as [-> | ->]; auto.
  Qed.
  Lemma arg_vars_length : forall args i, List.length (arg_vars i args) = List.length args.
  Proof. induction args as [|[x t] args IH]; intros i; cbn; auto. Qed.

  Theorem check_scoped : forall fuel,
    (forall e es, ok es (check module fuel e) one) /\ (forall e es, ok es (check_type module fuel e) none).
  Proof.
    induction fuel as [|f [IHc IHt]]; [split; intros; apply ok_more|].
    split.
    - intros e es. destruct e; cbn [check].
      + (* typeof *) eapply ok_and_then; [apply IHt|reflexivity|]. intros t. look. apply ok_incl. intros z [<-|[]]. left; auto.
      + (* var *) intros s y s' O G H. apply and_then_inv in H. destruct H as [[H ->]|(v & s1 & E & H)].
        * destruct (get_var_m_spec _ _ _ _ O H) as (_ & A & B & _). split; [auto|]. split; [auto|]. constructor.
        * destruct (get_var_m_spec _ _ _ _ O E) as (_ & A & B & (fr & r & Sc & C)). apply ret_inv in H. destruct H as [-> ->].
          split; [auto|]. split; [auto|]. repeat constructor. rewrite Sc. destruct (sv_place v); cbn; auto. eapply var_at_wf; eauto.
      + (* module path *) intros s y s' O G H. apply bind_inv in H. destruct H as (o & s1 & E & H).
        destruct (get_var_m_spec _ _ _ _ O E) as (_ & A & B & C). destruct o as [v|]; [|discriminate].
        destruct C as (fr & r & Sc & C). destruct (sv_place v) as [w|]; [|discriminate]. apply ret_inv in H. destruct H as [-> ->].
        split; [auto|]. split; [auto|]. repeat constructor. rewrite Sc. cbn. eapply var_at_wf; eauto.
      + apply check_let_ok; auto.
      + (* data type *) eapply ok_and_then; [apply IHt|reflexivity|]. intros t. look. apply ok_incl. intros z [<-|[]]. left; auto.
      + (* access *) eapply ok_and_then; [apply IHc|reflexivity|]. intros o. look. look. destruct x0; try (apply ok_fail; reflexivity).
        destruct (find_field 0 field fields) as [[i t]|]; [|apply ok_fail; reflexivity].
        apply ok_ret. intros sc F. repeat constructor. apply top_access. eapply F_in; [exact F|]. destruct o. cbn. auto.
      + (* struct *) eapply ok_bind; [apply each_rev_ok; auto|]. intros os. destruct (somes os) as [xs|] eqn:So; [|apply ok_fail; reflexivity].
        apply opts_somes in So. rewrite So. look. destruct x; [|apply ok_fail; reflexivity]. look.
        apply ok_ret. intros sc F. repeat constructor. apply top_struct. apply Forall_app in F. apply F.
      + (* copy *) eapply ok_and_then; [apply IHc|reflexivity|]. intros s0. look. look.
        destruct x0 as [[|] fields| | | | | | | ]; try (apply ok_fail; reflexivity).
        eapply ok_bind; [apply each_rev_ok; auto|]. intros os.
        intros s y s' O G H. apply bind_inv in H. destruct H as (r & s1 & E & H).
        destruct (copy_fields_ok f fields (combine (map fst args) os)) as [K HC]. pose proof (HC _ _ _ E) as HC'.
        pose proof (K _ _ _ E) as Sc. apply ret_inv in H. destruct H as [-> ->]. rewrite Sc.
        split; [auto|]. split; [apply sext_refl|]. destruct (somes os) as [xs|] eqn:So; [|constructor]. destruct (fst r); [|constructor].
        repeat constructor. apply top_copy.
        * eapply F_in; [exact G|]. apply in_or_app. right. apply in_or_app. left. destruct s0. cbn. auto.
        * intros e' He. destruct (HC' _ He) as (z & t & Hz). apply in_combine_r in Hz. eapply F_in; [exact G|]. apply in_or_app. left.
          rewrite (opts_somes _ _ So). change e' with (snd (t, e')). apply in_map. eapply somes_in; eauto.
      + (* union *) eapply ok_and_then; [apply IHt|reflexivity|]. intros t. look. look.
        destruct x0 as [[|] fields| | | | | | | ]; try apply ok_bad; [|apply ok_fail; reflexivity].
        destruct (find_field 0 field fields) as [[tag ft]|]; [|apply ok_fail; reflexivity].
        eapply ok_and_then; [apply IHc|reflexivity|]. intros a.
        eapply ok_and_then; [apply ok_none with (ex := none); apply ok_keeps; auto with keeps|reflexivity|]. intros q.
        apply ok_ret. intros sc F. repeat constructor. apply top_union. eapply F_in; [exact F|]. destruct a. cbn. auto.
      + apply check_select_ok; auto.
      + (* func type *) eapply ok_and_then; [apply IHt|reflexivity|]. intros t. look. apply ok_incl. intros z [<-|[]]. left; auto.
      + (* func *) eapply ok_and_then; [apply IHt|reflexivity|]. intros t. intros s y s' O G H.
        apply bind_inv in H. destruct H as ([] & s1 & E1 & H). unfold push_frame in E1. injection E1 as <-.
        apply bind_inv in H. destruct H as (o & s2 & E2 & H).
        apply IHc with (es := []) in E2; [|apply new_frame_ok; auto|constructor]. destruct E2 as (O2 & S2 & G2). cbn [scopes] in S2.
        apply bind_inv in H. destruct H as (fr & s3 & E3 & H).
        unfold pop_frame in E3. inversion S2 as [|? fr' ? r' X S2' E4 E5]; subst. rewrite <- E5 in E3. injection E3 as <- <-.
        rewrite <- E5 in O2, G2. destruct O2 as (_ & C2 & O2).
        destruct o as [[rt b]|]; [destruct (f_captured fr') as [scope|] eqn:Ec|].
        * apply bind_inv in H. destruct H as (n & s4 & E & H). pose proof (keeps_alloc _ _ _ _ E) as Sc. cbn in Sc.
          apply ret_inv in H. destruct H as [-> ->]. rewrite Sc. split; [auto|]. split; [auto|]. repeat constructor.
          apply Forall_cons_iff in G2. destruct G2 as [G2 _]. cbn in G2.
          assert (La : List.length (f_args fr') = 1) by apply (args_ext _ _ X).
          assert (Ll : flags fr' = []). { pose proof (x_locals _ _ X) as Xl. cbn in Xl. unfold flags. destruct (f_locals fr'); [reflexivity|inversion Xl]. }
          rewrite La, Ll in G2.
          unfold captured_ok in C2. rewrite Ec in C2. destruct r' as [|p r'].
          { destruct C2 as [C2 ->]. rewrite C2 in G2. cbn in *. auto. }
          pose proof (F2_length _ _ _ C2) as Ls.
          cbn. rewrite Ls, G2, andb_true_r. apply forallb_forall. intros w Hw.
          clear - C2 Hw. induction C2 as [|w' v cs ss Hv C2 IH]; [destruct Hw|]. destruct Hw as [<-|Hw]; auto. eapply var_at_wf; eauto.
        * apply ret_inv in H. destruct H as [-> ->]. split; [auto|]. split; [auto|]. constructor.
        * apply ret_inv in H. destruct H as [-> ->]. split; [auto|]. split; [auto|]. constructor.
      + (* poly *) destruct ((kind_level k =? 1) && v_type arg)%bool; [|apply ok_fail; reflexivity]. look. look.
        destruct x0 as [pa|]; [|apply ok_bad].
        intros s y s' O G H. apply bind_inv in H. destruct H as ([] & s1 & E1 & H). unfold push_local_type, on_frame in E1.
        destruct (scopes s) as [|fr r] eqn:Sc; [discriminate|]. injection E1 as <-.
        apply bind_inv in H. destruct H as (o & s2 & E2 & H).
        assert (Vx : forall l v, sv_place v = None -> values (l ++ [v]) = values l).
        { intros l v Hv. rewrite values_app. cbn. unfold is_value at 1. rewrite Hv. apply app_nil_r. }
        destruct O as ([F1 F2 F3 F4] & C & O).
        apply IHc with (es := []) in E2; [| |constructor].
        2:{ split; [split; cbn; auto; rewrite Vx; auto|]. split; auto. }
        destruct E2 as (O2 & S2 & G2). cbn [scopes] in S2. inversion S2 as [|? fr2 ? r2 X S2' E4 E5]; subst.
        apply bind_inv in H. destruct H as ([] & s3 & E3 & H). unfold pop_local, on_frame in E3. rewrite <- E5 in E3. injection E3 as <-.
        pose proof (x_locals _ _ X) as Xl. cbn in Xl. apply F2_app_inv in Xl. destruct Xl as (l2 & m2 & El & V1 & V2).
        inversion V2 as [|? v2 ? ? Hv V3]; subst. inversion V3; subst. rewrite El in H. rewrite removelast_last, last_app_one in H.
        assert (Pv : sv_place v2 = None) by (destruct Hv as (_ & _ & -> & _); reflexivity).
        assert (Ea : match v2 with MkVar _ _ _ None => f_allocated fr2 | _ => pred (f_allocated fr2) end = f_allocated fr2).
        { destruct v2 as [? ? ? [|]]; [discriminate|auto]. }
        rewrite Ea in H. rewrite <- E5 in O2, G2. destruct O2 as ([G3 G4 G5 G6] & C2 & O2). rewrite El, Vx in G5, G6 by auto.
        assert (OK' : scopes_ok (MkFrame (f_statics fr2) (f_args fr2) l2 (f_allocated fr2) (f_captured fr2) :: r2)).
        { split; [split; auto|]. split; auto. }
        assert (SX : sext (fr :: r) (MkFrame (f_statics fr2) (f_args fr2) l2 (f_allocated fr2) (f_captured fr2) :: r2)).
        { constructor; auto. destruct X as [X1 X2 X3 X4 X5]. split; auto. }
        destruct o as [[bt b]|].
        * apply bind_inv in H. destruct H as (n & s4 & E & H). pose proof (keeps_new_poly _ _ _ _ _ _ E) as Sc4. cbn in Sc4.
          apply ret_inv in H. destruct H as [-> ->]. rewrite Sc4. split; [auto|]. split; [auto|]. repeat constructor.
          apply Forall_cons_iff in G2. destruct G2 as [G2 _]. cbn in G2 |- *. unfold flags in *. cbn. rewrite El, Vx in G2 by auto. auto.
        * apply ret_inv in H. destruct H as [-> ->]. split; [auto|]. split; [auto|]. constructor.
      + (* poly apply *) eapply ok_bind; [apply IHc|]. intros op. eapply ok_bind; [apply for_type_ok; auto|]. intros oa.
        destruct op as [p|]; [|apply ok_fail; reflexivity]. destruct oa as [a|]; [|apply ok_fail; reflexivity].
        apply poly_apply_ok. destruct p. cbn. auto.
      + (* list *) eapply ok_and_then; [apply IHc|reflexivity|]. intros g. look. look. destruct x0; try (apply ok_fail; reflexivity).
        eapply ok_and_then; [apply ok_keeps; auto with keeps|reflexivity|]. intros elem. eapply ok_bind; [apply each_ok; auto|]. intros os.
        destruct (somes os) as [xs|] eqn:So; [|apply ok_fail; reflexivity]. rewrite (opts_somes _ _ So).
        eapply ok_and_then; [apply infer_args_ok|reflexivity|].
        { apply in_or_app. right. destruct g. cbn. auto. }
        intros q. look. look. destruct x1; try apply ok_bad. apply ok_ret. intros sc F. repeat constructor.
        apply Forall_app in F. destruct F as [F1 F2]. apply Forall_app in F2. apply top_apply.
        * eapply F_in; [exact F1|]. destruct q. cbn. auto.
        * apply top_list. apply F2.
      + (* literal *) eapply ok_and_then; [apply IHc|reflexivity|]. intros g. look. look. destruct x0; try (apply ok_fail; reflexivity).
        eapply ok_and_then; [apply ok_keeps; auto with keeps|reflexivity|]. intros elem. look. look.
        destruct x1 as [[|] fields| | | | | | | ]; try (apply ok_fail; reflexivity). look.
        eapply ok_and_then; [apply ok_keeps; auto with keeps|reflexivity|]. intros ls. apply ok_ret. intros sc F. repeat constructor.
        apply top_apply; [|destruct sc; reflexivity]. eapply F_in; [exact F|]. destruct g. cbn. auto.
      + (* package *) eapply ok_and_then; [apply IHt|reflexivity|]. intros t. look. apply ok_incl. intros z [<-|[]]. left; auto.
      + (* cast *) eapply ok_and_then; [apply IHt|reflexivity|]. intros pt. look. look. destruct x0; try (apply ok_fail; reflexivity).
        eapply ok_and_then; [apply IHt|reflexivity|]. intros t. eapply ok_and_then; [apply IHc|reflexivity|]. intros v.
        destruct (belongs module path); [|apply ok_fail; reflexivity]. destruct opaque; [|apply ok_bad].
        look. look. look. look. look. apply ok_incl. destruct x2; [|intros z []]. intros z [<-|[]]. right. destruct v. cbn. auto.
      + (* abstract access *) eapply ok_and_then; [apply IHc|reflexivity|]. intros v. look. look. destruct x0; try (apply ok_fail; reflexivity).
        look. destruct x0; try apply ok_bad. destruct (belongs module path); [|apply ok_fail; reflexivity].
        apply ok_incl. intros z [<-|[]]. right. destruct v. cbn. auto.
      + apply check_apply_ok; auto.
    - intros e es. destruct e; cbn [check_type];
        try (eapply ok_and_then; [apply for_type_ok; auto|reflexivity|]; intros t; apply ok_keeps; auto with keeps; fail).
      + apply for_type_ok; auto.
      + eapply ok_and_then; [apply data_fields_ok; auto|reflexivity|]. intros fs. look. apply ok_incl. intros z [].
      + eapply ok_bind; [apply IHt|]. intros oa. eapply ok_bind; [apply IHt|]. intros ob.
        destruct oa; [|apply ok_fail; reflexivity]. destruct ob; [|apply ok_fail; reflexivity]. look. apply ok_incl. intros z [].
      + look. apply ok_incl. intros z [].
  Qed.
End check.
