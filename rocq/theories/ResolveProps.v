(** * Names mean what they should: C50. *)
From Coq Require Import String List Arith Bool ZArith Lia.
From Verif Require CodeModel CompileModel CompileStatic.
From Verif Require Import KindModel UnusedModel TypeModel CheckModel CheckScope CheckScoped ResolveStore ResolveScope.
From Verif Require ResolveSpec CheckProps.
Import ListNotations.
Local Open Scope list_scope.
Local Notation tc := CompileModel.tc.
Local Notation var := CodeModel.var.
Import ResolveSpec(key(..), key_dec, named, place(..), env, empty, bind_locals, bind_modules, captures, present, apply_to, resolves(..), resolves_all(..)).
Local Notation rbind := ResolveSpec.bind.

Definition item : Type := list expr * list tc.
Definition size (sc : list frame) : nat := match sc with [] => 0 | fr :: _ => f_allocated fr end.
Definition res (sc : list frame) (i : item) : Prop := resolves_all (size sc) (scope_env sc) (fst i) (snd i).

Definition ok2 {A} (es : list item) (m : M A) (ex : A -> list item) : Prop := forall s x s',
  scopes_ok (scopes s) -> names_ok (scopes s) -> Forall (res (scopes s)) es -> m s = Done x s' ->
  scopes_ok (scopes s') /\ sext (scopes s) (scopes s') /\ names_ok (scopes s') /\ Forall (res (scopes s')) (ex x).

Definition no {A} (x : A) : list item := [].
Definition one2 (e : expr) (o : option (nat * tc)) : list item := match o with Some (_, c) => [([e], [c])] | None => [] end.
Definition all2 (es : list expr) (os : list (option (nat * tc))) : list item :=
  match somes os with Some xs => [(es, map snd xs)] | None => [] end.

Lemma res_one sc e c : res sc ([e], [c]) <-> resolves (size sc) (scope_env sc) e c.
Proof. unfold res. cbn. split; intros H; [inversion H; auto|repeat constructor; auto]. Qed.

Lemma size_ext sc sc' : sext sc sc' -> size sc' = size sc.
Proof. intros S. destruct S as [|? ? ? ? X]; cbn; auto. apply (x_allocated _ _ X). Qed.
Lemma res_ext sc sc' i : sext sc sc' -> names_ok sc' -> res sc i -> res sc' i.
Proof. intros S N R. unfold res in *. rewrite (size_ext _ _ S). eapply resolves_all_le; eauto. apply scope_env_le; auto. Qed.
Lemma ress_ext sc sc' es : sext sc sc' -> names_ok sc' -> Forall (res sc) es -> Forall (res sc') es.
Proof. intros S N. apply Forall_impl. intros i. apply res_ext; auto. Qed.

Lemma ok2_bind {A B} es (m : M A) (k : A -> M B) ex ex' : ok2 es m ex -> (forall x, ok2 (ex x ++ es) (k x) ex') -> ok2 es (bind m k) ex'.
Proof.
  intros Hm Hk s y s' O N G H. apply bind_inv in H. destruct H as (x & s1 & E & H).
  destruct (Hm _ _ _ O N G E) as (O1 & S1 & N1 & G1). assert (G' : Forall (res (scopes s1)) (ex x ++ es)).
  { apply Forall_app. split; auto. eapply ress_ext; eauto. }
  destruct (Hk x _ _ _ O1 N1 G' H) as (O2 & S2 & N2 & G2). repeat (split; auto). eapply sext_trans; eauto.
Qed.
Lemma ok2_ret {A} es (x : A) ex : (forall sc, Forall (res sc) es -> Forall (res sc) (ex x)) -> ok2 es (ret x) ex.
Proof. intros H s y s' O N G R. apply ret_inv in R. destruct R as [-> ->]. auto using sext_refl. Qed.
Lemma ok2_and_then {A B} es (m : M (option A)) (k : A -> M (option B)) ex ex' : ok2 es m ex -> ex' None = [] ->
  (forall x, ok2 (ex (Some x) ++ es) (k x) ex') -> ok2 es (and_then m k) ex'.
Proof.
  intros Hm Hn Hk. unfold and_then. eapply ok2_bind; [exact Hm|]. intros [x|]; auto. apply ok2_ret. rewrite Hn. auto.
Qed.
Lemma ok2_keeps {A} es (m : M A) : keeps m -> ok2 es m no.
Proof. intros K s x s' O N G H. rewrite (K _ _ _ H). split; [auto|]. split; [apply sext_refl|]. split; [auto|constructor]. Qed.
Lemma ok2_bad {A} es (ex : A -> list item) : ok2 es bad ex.
Proof. intros s x s' _ _ _ H. discriminate. Qed.
Lemma ok2_more {A} es (ex : A -> list item) : ok2 es (fun _ => More) ex.
Proof. intros s x s' _ _ _ H. discriminate. Qed.
Lemma ok2_fail {A} es (ex : option A -> list item) : ex None = [] -> ok2 es (ret None) ex.
Proof. intros H. apply ok2_ret. rewrite H. auto. Qed.
Lemma ok2_nil {A} es (m : M A) ex : ok2 es m ex -> ok2 es m no.
Proof. intros H s x s' O N G E. destruct (H _ _ _ O N G E) as (A1 & A2 & A3 & _). repeat (split; auto). constructor. Qed.
(** Looking at types only, with what is known of the result. *)
Lemma ok2_look {A B} es (m : M A) (k : A -> M B) ex (P : A -> Prop) : keeps m -> (forall s x s', m s = Done x s' -> P x) ->
  (forall x, P x -> ok2 es (k x) ex) -> ok2 es (bind m k) ex.
Proof.
  intros K HP Hk s y s' O N G H. apply bind_inv in H. destruct H as (x & s1 & E & H). pose proof (K _ _ _ E) as Sc.
  assert (O1 : scopes_ok (scopes s1)) by congruence. assert (N1 : names_ok (scopes s1)) by congruence.
  assert (G1 : Forall (res (scopes s1)) es) by congruence.
  destruct (Hk x (HP _ _ _ E) _ _ _ O1 N1 G1 H) as (A1 & A2 & A3 & A4). rewrite Sc in A2. auto.
Qed.

Ltac look := eapply ok2_bind; [apply ok2_keeps; auto with keeps|]; intros ?; cbn [no app].
Ltac items := repeat match goal with
  | H : Forall _ (_ ++ _) |- _ => apply Forall_app in H; destruct H
  | H : Forall _ (_ :: _) |- _ => apply Forall_cons_iff in H; destruct H
  | H : res _ ([_], [_]) |- _ => apply res_one in H
  | H : Forall _ [] |- _ => clear H
  end.
Ltac give := constructor; [|constructor]; apply res_one; cbn [snd fst] in *.

Lemma somes_map {A} : forall (os : list (option A)) xs, somes os = Some xs -> os = map Some xs.
Proof.
  induction os as [|[x|] os IH]; intros xs H; cbn in H; try discriminate; [injection H as <-; auto|].
  destruct (somes os) as [ys|]; [|discriminate]. injection H as <-. cbn. f_equal. auto.
Qed.

Section check.
  Variable module : list string.
  Section parts.
    Variable chk : expr -> M (option (nat * tc)).
    Variable chk_type : expr -> M (option nat).
    Variable f : nat.
    Hypothesis chk_ok2 : forall e es, ok2 es (chk e) (one2 e).
    Hypothesis type_ok2 : forall e es, ok2 es (chk_type e) no.
    Hypothesis chk_scoped : forall e es, ok es (chk e) one.
    Hypothesis type_scoped : forall e es, ok es (chk_type e) none.
    Hypothesis chk_stable : forall e, stable (chk e).

    Lemma all2_cons e es o os sc : Forall (res sc) (one2 e o) -> Forall (res sc) (all2 es os) -> Forall (res sc) (all2 (e :: es) (o :: os)).
    Proof.
      intros A B. unfold all2 in *. cbn. destruct o as [[t c]|]; [|constructor]. destruct (somes os) as [xs|]; [|constructor].
      cbn in *. items. constructor; [|constructor]. unfold res in *. cbn in *. constructor; auto.
    Qed.
    Lemma each_ok2 args : forall es, ok2 es (each chk args) (all2 args).
    Proof.
      induction args as [|a args IH]; intros es; cbn [each].
      - apply ok2_ret. intros sc _. cbn. constructor; [|constructor]. unfold res. cbn. constructor.
      - eapply ok2_bind; [apply chk_ok2|]. intros o. eapply ok2_bind; [apply IH|]. intros os. apply ok2_ret.
        intros sc F. items. apply all2_cons; auto.
    Qed.
    Lemma each_rev_ok2 (args : list (vname * expr)) : forall es, ok2 es (each_rev (fun p => chk (snd p)) args) (all2 (map snd args)).
    Proof.
      induction args as [|a args IH]; intros es; cbn [each_rev map].
      - apply ok2_ret. intros sc _. cbn. constructor; [|constructor]. unfold res. cbn. constructor.
      - eapply ok2_bind; [apply IH|]. intros os. eapply ok2_bind; [apply chk_ok2|]. intros o. apply ok2_ret.
        intros sc F. items. apply all2_cons; auto.
    Qed.

    (** Function application *)
    Lemma apply_args_code : forall args g s q s', apply_args f g args s = Done (Some q) s' -> snd q = apply_to (snd g) (map snd args).
    Proof.
      induction args as [|a args IH]; intros g s q s' H; cbn [apply_args] in H.
      - apply ret_inv in H. destruct H as [H _]. injection H as ->. auto.
      - apply bind_inv in H. destruct H as (p & s1 & E1 & H). pose proof (depoly_no_type _ _ _ _ _ E1) as N.
        pose proof (stable_depoly _ _ _ _ _ _ E1) as P1.
        apply bind_inv in H. destruct H as (d & s2 & E2 & H). pose proof (stable_get _ _ _ _ E2) as P2. destruct d; try discriminate.
        apply and_then_inv in H. destruct H as [[_ H]|(q' & s3 & E3 & H)]; [discriminate|].
        apply infer_args_exact in E3. 2:{ destruct N; [auto|]. right. eapply no_type_pres; [|eassumption]. eauto using pres_trans. }
        apply bind_inv in H. destruct H as (n & s4 & _ & H). apply bind_inv in H. destruct H as (ft & s5 & _ & H). destruct ft; try discriminate.
        apply IH in H. rewrite H. cbn. rewrite E3. auto.
    Qed.
    Lemma keeps_apply_args : forall args g, keeps (apply_args f g args).
    Proof. induction args as [|a args IH]; intros g; cbn [apply_args]; keeps_tac; apply IH. Qed.

    Lemma check_apply_ok2 b misc args es : ok2 es (check_apply module chk f b misc args) (one2 (EApply b misc args)).
    Proof.
      unfold check_apply. eapply ok2_bind; [apply chk_ok2|]. intros om. eapply ok2_bind; [apply each_ok2|]. intros os.
      destruct om as [m|]; [|apply ok2_fail; reflexivity]. destruct (somes os) as [xs|] eqn:So; [|apply ok2_fail; reflexivity].
      unfold all2. rewrite So.
      match goal with |- ok2 ?es0 _ _ => set (es1 := es0) end.
      assert (Gm : forall sc, Forall (res sc) es1 -> resolves (size sc) (scope_env sc) misc (snd m) /\ resolves_all (size sc) (scope_env sc) args (map snd xs)).
      { intros sc F. unfold es1 in F. destruct m as [t c]. cbn [one2] in F. items. split; auto. }
      assert (HA : ok2 es1 (apply_args f m xs) (one2 (EApply b misc args))).
      { intros s y s' O N G H. pose proof (keeps_apply_args _ _ _ _ _ H) as K. rewrite K. split; [auto|]. split; [apply sext_refl|]. split; [auto|].
        destruct y as [[t c]|]; [|constructor]. cbn [one2]. give. apply apply_args_code in H. cbn in H. rewrite H.
        destruct (Gm _ G). apply res_apply; auto. }
      look. look. destruct b; auto. destruct x0; auto. look. look.
      match goal with |- ok2 _ (match ?d with _ => _ end) _ => destruct d end; try (look; look;
        match goal with |- ok2 _ (match ?d with _ => _ end) _ => destruct d end; auto;
        match goal with |- ok2 _ (match ?d with _ => _ end) _ => destruct d end; auto;
        (eapply ok2_and_then; [apply ok2_keeps; auto with keeps|reflexivity|]; intros q; cbn [no app];
         apply ok2_ret; intros sc F; cbn [one2]; give; apply res_apply_struct; apply (Gm _ F))).
      destruct xs as [|[t e] [|]]; try (apply ok2_fail; reflexivity). destruct (belongs module path); [|apply ok2_fail; reflexivity].
      look. apply ok2_ret. intros sc F. destruct (Gm _ F) as [_ R]. cbn in R. inversion R as [|a es0 c cs Ra Rr]; subst. inversion Rr; subst.
      cbn [one2]. give. apply res_apply_abstract; auto.
    Qed.

    (** Frames of type expressions, functions, poly parameters. *)
    Lemma new_frame_names c args sc : names_ok sc -> names_ok (new_frame c args :: sc).
    Proof. intros N. split; auto. intros i v E. destruct i; discriminate. Qed.
    Lemma for_type_ok2 e es : ok2 es (for_type chk e) no.
    Proof.
      intros s y s' O N G H. destruct (for_type_ok chk chk_scoped e [] _ _ _ O (Forall_nil _) H) as (O' & S' & _).
      split; [auto|]. split; [auto|]. split; [|constructor].
      unfold for_type in H. apply bind_inv in H. destruct H as ([] & s1 & E1 & H).
      unfold push_frame in E1. injection E1 as <-. apply bind_inv in H. destruct H as (o & s2 & E2 & H).
      apply chk_ok2 with (es := []) in E2; [|apply (new_frame_ok s); auto|apply new_frame_names; auto|constructor].
      destruct E2 as (_ & S2 & N2 & _). cbn [scopes] in S2. apply bind_inv in H. destruct H as (fr & s3 & E3 & H).
      unfold pop_frame in E3. inversion S2 as [|? fr' ? r' X S2' E4 E5]; subst. rewrite <- E5 in E3, N2. injection E3 as <- <-.
      apply ret_inv in H. destruct H as [-> ->]. cbn. apply N2.
    Qed.

    (** ** Lets *)
    Lemma let_types_ok2 : forall bs seen es, ok2 es (let_types chk_type f seen bs) no.
    Proof.
      induction bs as [|[[x [k|t]] e] bs IH]; intros seen es; cbn [let_types].
      - apply ok2_ret. constructor.
      - eapply ok2_bind; [apply ok2_keeps; apply keeps_bind; auto with keeps|]. intros o.
        eapply ok2_bind; [apply ok2_keeps; destruct o; auto with keeps|]. intros b. eapply ok2_bind; [apply IH|]. intros p.
        apply ok2_ret. constructor.
      - eapply ok2_bind; [apply type_ok2|]. intros o.
        eapply ok2_bind; [apply ok2_keeps; destruct o; auto with keeps|]. intros b. eapply ok2_bind; [apply IH|]. intros p.
        apply ok2_ret. constructor.
    Qed.
    Definition defs2 (bs : list (vname * (kind + expr) * expr)) (o : option (list (nat * tc))) : list item :=
      match o with Some ds => [(map snd bs, map snd ds)] | None => [] end.
    Lemma let_defs_ok2 : forall bs ts es, List.length ts = List.length bs -> ok2 es (let_defs chk f bs ts) (defs2 bs).
    Proof.
      induction bs as [|[[x kt] e] bs IH]; intros [|t ts] es L; cbn [let_defs]; try discriminate.
      - apply ok2_ret. intros sc _. cbn. constructor; [|constructor]. unfold res. cbn. constructor.
      - eapply ok2_and_then; [apply chk_ok2|reflexivity|]. intros d.
        eapply ok2_bind; [apply ok2_keeps; destruct kt; auto with keeps|]. intros b. cbn [no app].
        destruct b; [|apply ok2_fail; reflexivity]. eapply ok2_and_then; [apply IH; cbn in L; lia|reflexivity|]. intros ds.
        apply ok2_ret. intros sc F. cbn [defs2 one2 map] in *. destruct d as [u c]. cbn [one2] in F. items.
        constructor; [|constructor]. unfold res in *. cbn in *. constructor; auto.
    Qed.

    (** The scope of the definitions and of the body. *)
    Fixpoint bound_at (k : nat) (xs : list vname) (j : key) : option nat :=
      match xs with
      | [] => None
      | x :: r => match bound_at (S k) r j with Some i => Some i | None => if key_dec j (named x) then Some k else None end
      end.
    Lemma bind_locals_at r : forall xs k G j,
      bind_locals k xs r G j = match bound_at k xs j with Some i => Some (if r then At (CodeModel.Local i) else Away) | None => G j end.
    Proof.
      induction xs as [|x xs IH]; intros k G j; cbn; auto. rewrite IH. destruct (bound_at (S k) xs j); auto.
      unfold rbind. destruct (key_dec j (named x)); auto.
    Qed.
    Lemma lastv_bound : forall vs k xs j, map sv_name vs = map Plain xs -> placed CodeModel.Local k vs ->
      match lastv j vs, bound_at k xs j with
      | Some v, Some i => sv_place v = Some (CodeModel.Local i) /\ In v vs
      | None, None => True
      | _, _ => False
      end.
    Proof.
      induction vs as [|v vs IH]; intros k [|x xs] j E P; cbn in *; try discriminate; auto. injection E as E1 E2. destruct P as [P1 P2].
      specialize (IH (S k) xs j E2 P2). destruct (lastv j vs) as [w|], (bound_at (S k) xs j) as [i|]; try contradiction.
      - destruct IH. auto.
      - unfold keyed. rewrite E1. cbn. destruct (key_dec j (named x)); auto.
    Qed.
    (** Inside the let against outside of it. *)
    Lemma let_env_le fr r l n xs k b : f_locals fr = l ++ n -> map sv_name n = map Plain xs -> placed CodeModel.Local k n ->
      (b = false -> existsb sv_used n = false) ->
      forall G, le (scope_env (MkFrame (f_statics fr) (f_args fr) l k (f_captured fr) :: r)) G ->
      le (scope_env (fr :: r)) (bind_locals k xs b G).
    Proof.
      intros El En Pl U G L j p E Np. cbn in E. rewrite El, lastv_app in E. rewrite bind_locals_at.
      pose proof (lastv_bound _ _ _ j En Pl) as H. destruct (lastv j n) as [v|], (bound_at k xs j) as [i|]; try contradiction.
      - destruct H as [Hp Hi]. injection E as <-. unfold local_place in *. rewrite Hp in *. destruct b.
        + destruct (sv_used v); auto. congruence.
        + specialize (U eq_refl). destruct (sv_used v) eqn:Uv; [|congruence]. exfalso.
          assert (existsb sv_used n = true) by (apply existsb_exists; eauto). congruence.
      - apply L; auto.
    Qed.

    Lemma check_let_ok2 bs body es : ok2 es (check_let chk chk_type f bs body) (one2 (ELet bs body)).
    Proof.
      intros s y s' O N G H. destruct (check_let_ok chk chk_type f chk_scoped type_scoped bs body [] _ _ _ O (Forall_nil _) H) as (O' & S' & _).
      split; [auto|]. split; [auto|]. unfold check_let in H. apply bind_inv in H. destruct H as (p & s1 & E1 & H).
      pose proof (let_types_len _ _ _ _ _ _ _ E1) as Lp.
      destruct (let_types_ok2 _ _ es _ _ _ O N G E1) as (O1 & S1 & N1 & _). clear E1.
      destruct (fst p). 2:{ apply ret_inv in H. destruct H as [-> ->]. split; auto. constructor. }
      specialize (Lp eq_refl). apply bind_inv in H. destruct H as ([] & s2 & E2 & H).
      apply bind_inv in H. destruct H as (o & s3 & E3 & H).
      destruct (scopes s1) as [|fr r] eqn:Sc1.
      { exfalso. destruct bs as [|b bs].
        - cbn in E2. injection E2 as <-. destruct (snd p); [|discriminate]. cbn in E3. injection E3 as <- <-.
          apply bind_inv in H. destruct H as (vs & s4 & E4 & H). unfold top_locals in E4. rewrite Sc1 in E4. discriminate.
        - destruct (snd p) as [|t ts]; [discriminate|]. cbn [map combine push_locals] in E2. apply bind_inv in E2.
          destruct E2 as ([] & s4 & E4 & _). unfold push_local, on_frame in E4. rewrite Sc1 in E4. discriminate. }
      destruct (push_locals_spec _ _ _ _ _ Sc1 E2) as (new & Sc2 & _ & Hn & _ & Hu & Hp).
      set (n := List.length bs) in *. set (xs := map (fun b : vname * (kind + expr) * expr => fst (fst b)) bs) in *.
      assert (Ln : List.length (combine xs (snd p)) = n).
      { rewrite combine_length. unfold xs. rewrite map_length, Lp. unfold n. lia. }
      assert (Hxs : map sv_name new = map Plain xs).
      { rewrite Hn. assert (Lx : List.length xs = List.length (snd p)) by (unfold xs; rewrite map_length; lia).
        clear - Lx. revert Lx. generalize (snd p). induction xs as [|x xs IH]; intros [|t ts] L; cbn in *; try discriminate; auto. f_equal. auto. }
      assert (Lnew : List.length new = n). { rewrite <- (map_length sv_name), Hn, map_length. auto. }
      rewrite Ln in Sc2. cbn in O1. destruct O1 as (F1 & C1 & O1).
      destruct (let_frames fr r new n (scopes s3) F1 C1 O1 Hp Lnew) as [OK2 K]. rewrite <- Sc2 in OK2.
      assert (NK2 : names_ok (scopes s2)). { rewrite Sc2. destruct N1 as [N1 N1']. split; auto. }
      destruct (let_defs_ok2 bs (snd p) [] Lp _ _ _ OK2 NK2 (Forall_nil _) E3) as (O3 & S3 & N3 & G3). rewrite Sc2 in S3.
      destruct (K S3 O3) as (fr3 & r3 & l3 & n3 & Sc3 & El3 & V3 & V3' & Al3 & Iv3 & Pl3 & OKp & Sp & Fl3). clear K.
      assert (Ln3 : List.length n3 = n). { rewrite <- Lnew. symmetry. eapply F2_length; eauto. }
      assert (vle_names : forall l l', Forall2 vle l l' -> map sv_name l' = map sv_name l).
      { intros l l' V. induction V as [|v w l l' (Hv & _)]; cbn; congruence. }
      assert (Hx3 : map sv_name n3 = map Plain xs). { rewrite (vle_names _ _ V3'). auto. }
      rewrite Sc3 in N3. destruct N3 as [N3 N3'].
      destruct o as [ds|].
      2:{ apply bind_inv in H. destruct H as ([] & s4 & E4 & H). apply ret_inv in H. destruct H as [-> ->].
          destruct (pop_locals_spec _ _ _ _ _ l3 n3 (f_allocated fr) Sc3 El3 Ln3 Iv3 Al3 E4) as [-> _].
          split; [split; auto|]. constructor. }
      pose proof (let_defs_len _ _ _ _ _ _ _ E3 Lp) as Lds.
      apply bind_inv in H. destruct H as (vs & s4 & E4 & H).
      destruct (top_locals_spec _ _ _ _ _ _ _ _ Sc3 El3 Ln3 E4) as [-> ->]. clear E4.
      apply bind_inv in H. destruct H as (ts & s4 & E4 & H). pose proof (let_assign_len _ _ _ _ _ _ _ E4 Lp Lds) as Lts.
      pose proof (keeps_let_assign _ _ _ _ _ _ _ E4) as Sc4. rewrite Sc3 in Sc4. clear E4.
      apply bind_inv in H. destruct H as ([] & s5 & E5 & H).
      assert (Lt3 : List.length ts = List.length n3) by lia.
      destruct (set_top_types_spec _ _ _ _ _ l3 n3 Sc4 El3 Lt3 E5) as [Sc5 _]. clear E5.
      apply bind_inv in H. destruct H as (vac & s6 & E6 & H).
      assert (Sc6 : scopes s6 = scopes s5). { eapply (keeps_each (vacuous f)); eauto with keeps. } rewrite Sc5 in Sc6. clear E6.
      apply bind_inv in H. destruct H as (ob & s7 & E7 & H).
      destruct (set_types_of_spec n3 ts) as (Q1 & Q2 & Q3 & Q4); [lia|].
      set (fr' := MkFrame (f_statics fr3) (f_args fr3) l3 (f_allocated fr) (f_captured fr3)) in *.
      destruct OKp as (OKp1 & OKp2 & OKp3).
      destruct (let_frames fr' r3 (set_types_of n3 ts) n (scopes s7)) as [OK6 K]; auto.
      { eapply placed_places; eauto. }
      { rewrite <- (map_length sv_name), Q1, map_length. auto. }
      cbn [f_statics f_args f_locals f_allocated f_captured fr'] in OK6, K. rewrite Al3 in Sc6. rewrite <- Sc6 in OK6.
      assert (NK6 : names_ok (scopes s6)). { rewrite Sc6. split; auto. }
      assert (scopes_ok (scopes s7) /\ sext (scopes s6) (scopes s7) /\ names_ok (scopes s7) /\ Forall (res (scopes s7)) (one2 body ob)) as (O7 & S7 & N7 & G7).
      { destruct (existsb (fun b => b) vac).
        - apply ret_inv in E7. destruct E7 as [-> ->]. repeat split; auto using sext_refl. constructor.
        - apply (chk_ok2 body [] _ _ _ OK6 NK6 (Forall_nil _) E7). }
      rewrite Sc6 in S7. destruct (K S7 O7) as (fr7 & r7 & l7 & n7 & Sc7 & El7 & V7 & V7' & Al7 & Iv7 & Pl7 & OK7 & Sp7 & Fl7). clear K.
      assert (Ln7 : List.length n7 = n). { rewrite <- (F2_length _ _ _ V7'). rewrite <- (map_length sv_name), Q1, map_length. auto. }
      assert (Hx7 : map sv_name n7 = map Plain xs). { rewrite (vle_names _ _ V7'), Q1. auto. }
      apply bind_inv in H. destruct H as ([] & s8 & E8 & H).
      destruct (pop_locals_spec _ _ _ _ _ l7 n7 (f_allocated fr) Sc7 El7 Ln7 Iv7 Al7 E8) as [Sc8 _].
      cbn [f_allocated fr'] in OK7, Sp7, Fl7, Pl7. unfold fr' in OK7, Sp7, Fl7, Pl7. cbn [f_allocated] in OK7, Sp7, Fl7, Pl7.
      rewrite Sc7 in N7. assert (N8 : names_ok (scopes s8)). { rewrite Sc8. destruct N7. split; auto. }
      destruct ob as [[t b]|].
      2:{ apply ret_inv in H. destruct H as [-> ->]. split; auto. constructor. }
      apply ret_inv in H. destruct H as [-> ->]. split; auto. cbn [one2].
      constructor; [|constructor]. apply res_one. rewrite Sc8 at 1. cbn [size f_allocated].
      assert (Le8 : le (scope_env (fr' :: r3)) (scope_env (scopes s8))).
      { apply scope_env_le; auto. rewrite Sc8. exact Sp7. }
      apply res_let; fold n; fold xs.
      - cbn [defs2] in G3. items. rewrite Sc3 in H. unfold res in H. cbn [size fst snd] in H. rewrite Al3 in H.
        eapply resolves_all_le; [exact H|].
        apply (let_env_le fr3 r3 l3 n3 xs (f_allocated fr) (existsb sv_used n3)); auto.
      - cbn [one2] in G7. items. rewrite Sc7 in H. cbn [size] in H. rewrite Al7 in H. eapply resolves_le; [exact H|].
        apply (let_env_le fr7 r7 l7 n7 xs (f_allocated fr) true); auto; [discriminate|].
        rewrite Sc8. apply le_refl.
    Qed.

    (** ** Selects *)
    Definition targets2 (done_ : list expr) (p : select * list (vname * expr)) : list item := [].
    Lemma select_fields_ok2 : forall fields i choices d a es done_,
      (forall sc, Forall (res sc) es -> resolves_all (size sc) (scope_env sc) done_ (map snd (s_targets a))) ->
      ok2 es (select_fields chk f i fields choices d a)
        (fun p => if s_ok (fst p) then match snd p with [] => [(done_ ++ map snd choices, map snd (s_targets (fst p)))] | _ => [] end else []).
    Proof.
      induction fields as [|[x t] fields IH]; intros i choices d a es done_ HD; cbn [select_fields].
      - apply ok2_ret. intros sc F. cbn. destruct (s_ok a); [|constructor]. destruct choices; [|constructor].
        constructor; [|constructor]. unfold res. cbn. rewrite app_nil_r. auto.
      - assert (Hm : forall c, ok2 es (select_fields chk f (S i) fields c d
                   (if d then MkSelect (s_ok a) true (s_type a) (s_targets a)
                    else MkSelect false (s_default a) (s_type a) (s_targets a)))
            (fun p => if s_ok (fst p) then match snd p with [] => [(done_ ++ map snd c, map snd (s_targets (fst p)))] | _ => [] end else [])).
        { intros c. apply IH. destruct d; auto. }
        destruct choices as [|[y e] cr]; auto. destruct (vname_equal y x); auto.
        eapply ok2_bind; [apply chk_ok2|]. intros r.
        destruct r as [[u b]|].
        + eapply ok2_look with (P := fun a' => s_targets a' = s_targets a ++ [(i, b)]).
          * destruct (s_type a); auto with keeps. 
          * intros s a' s' E. destruct (s_type a); [apply bind_inv in E; destruct E as (q & s1 & _ & E)|]; apply ret_inv in E; destruct E as [-> _]; auto.
          * intros a' Ha. cbn [map snd]. replace (done_ ++ e :: map snd cr) with ((done_ ++ [e]) ++ map snd cr) by (rewrite <- app_assoc; auto).
            apply IH. intros sc F. cbn [one2] in F. items. rewrite Ha, map_app. apply resolves_all_app; auto. constructor; auto. constructor.
        + (* no choice that fails makes the whole right *)
          eapply ok2_look with (P := fun a' => s_ok a' = false); [auto with keeps| |].
          * intros s a' s' E. apply ret_inv in E. destruct E as [-> _]. auto.
          * intros a' Ha. intros s q s' O N G H.
            assert (Hf : s_ok (fst q) = false).
            { clear - H Ha. revert Ha H. generalize cr. generalize (S i). clear i cr. revert a' s q s'.
              induction fields as [|[x0 t0] fields IH]; intros a' s q s' i cr Ha H; cbn [select_fields] in H.
              - apply ret_inv in H. destruct H as [-> _]. auto.
              - assert (Hm : forall c, select_fields chk f (S i) fields c d
                   (if d then MkSelect (s_ok a') true (s_type a') (s_targets a')
                    else MkSelect false (s_default a') (s_type a') (s_targets a')) s = Done q s' -> s_ok (fst q) = false).
                { intros c E. apply IH in E; auto. destruct d; auto. }
                destruct cr as [|[y0 e0] cr]; [eauto|]. destruct (vname_equal y0 x0); [|eauto]. clear Hm.
                apply bind_inv in H. destruct H as (r & s1 & _ & H). apply bind_inv in H. destruct H as (a2 & s2 & E & H).
                apply IH in H; auto. destruct r as [[u b]|]; [destruct (s_type a')|]; [apply bind_inv in E; destruct E as (w & s3 & _ & E)| |];
                  apply ret_inv in E; destruct E as [-> _]; cbn; auto. rewrite Ha. auto. }
            assert (K : ok2 es (select_fields chk f (S i) fields cr d a') no).
            { clear - chk_ok2 Ha. revert es i cr a' Ha. induction fields as [|[x0 t0] fields IH]; intros es i cr a' Ha; cbn [select_fields].
              - apply ok2_ret. constructor.
              - assert (Hm : forall c, ok2 es (select_fields chk f (S (S i)) fields c d
                   (if d then MkSelect (s_ok a') true (s_type a') (s_targets a')
                    else MkSelect false (s_default a') (s_type a') (s_targets a'))) no). { intros c. apply IH. destruct d; auto. }
                destruct cr as [|[y0 e0] cr]; auto. destruct (vname_equal y0 x0); auto.
                eapply ok2_bind; [eapply ok2_nil, chk_ok2|]. intros r.
                eapply ok2_look with (P := fun a2 => s_ok a2 = false).
                + destruct r as [[u b]|]; [destruct (s_type a')|]; auto with keeps.
                + intros s a2 s' E. destruct r as [[u b]|]; [destruct (s_type a')|]; [apply bind_inv in E; destruct E as (w & s3 & _ & E)| |];
                  apply ret_inv in E; destruct E as [-> _]; cbn; auto. rewrite Ha. auto.
                + intros a2 H2. apply IH; auto. }
            cbn [one2 app] in G. destruct (K _ _ _ O N G H) as (K1 & K2 & K3 & _). rewrite Hf. repeat (split; auto).
    Qed.

    Lemma check_select_ok2 c choices d es : ok2 es (check_select chk f c choices d) (one2 (ESelect c choices d)).
    Proof.
      unfold check_select. eapply ok2_and_then; [apply chk_ok2|reflexivity|]. intros c'. look. look.
      destruct x0 as [[|] fields| | | | | | | ]; try (apply ok2_fail; reflexivity).
      set (es0 := one2 c (Some c') ++ es).
      assert (Gc : forall sc, Forall (res sc) es0 -> resolves (size sc) (scope_env sc) c (snd c')).
      { intros sc F. unfold es0 in F. destruct c'. cbn [one2] in F. items. auto. }
      eapply ok2_bind with (ex := fun o => match o, d with Some r, Some e => one2 e r | Some _, None => [([c], [])] | _, _ => [] end).
      { destruct d; [|apply ok2_ret; constructor]. eapply ok2_bind; [apply chk_ok2|]. intros r. apply ok2_ret. intros sc F. items. auto. }
      intros dflt. cbv zeta.
      eapply ok2_bind; [apply select_fields_ok2 with (done_ := []); intros; cbn; constructor|].
      intros [a lft]. cbn [fst snd app].
      destruct (s_ok a); cbn [andb]; [|apply ok2_fail; reflexivity].
      destruct lft as [|l lft]; [|apply ok2_fail; reflexivity].
      destruct (s_type a) as [t|]; [|apply ok2_bad].
      destruct (s_default a).
      - destruct dflt as [[[dt b]|]|]; try apply ok2_bad. apply ok2_ret. intros sc F. destruct d as [de|].
        + cbn [one2] in F. apply Forall_app in F. destruct F as [F1 F2]. apply Forall_app in F2. destruct F2 as [F2 F3].
          items. cbn [one2]. give. apply res_select; auto.
        + exfalso. apply Forall_app in F. destruct F as [_ F]. apply Forall_app in F. destruct F as [F _]. inversion F as [|? ? F1]; subst. inversion F1.
      - destruct (rev (s_targets a)) as [|[i b] r] eqn:Er; [apply ok2_bad|].
        assert (Et : s_targets a = rev r ++ [(i, b)]). { rewrite <- (rev_involutive (s_targets a)), Er. reflexivity. }
        apply ok2_ret. intros sc F. apply Forall_app in F. destruct F as [F1 F2]. apply Forall_app in F2. destruct F2 as [_ F3].
        items. cbn [one2]. give. apply res_select_all; auto. rewrite Et, map_app in H. exact H.
    Qed.
    (** ** Struct copies *)
    Lemma copy_fields_present : forall fields args os s r s' xs, List.length args = List.length os -> somes os = Some xs ->
      copy_fields f fields (combine args os) s = Done r s' -> fst r = true -> present (snd r) = map snd xs.
    Proof.
      induction fields as [|[x t] fields IH]; intros args os s r s' xs L So H T; cbn [copy_fields] in H.
      - apply ret_inv in H. destruct H as [-> _]. destruct args as [|y args], os as [|o os]; try discriminate. cbn in So. injection So as <-. auto.
      - destruct args as [|y args], os as [|o os]; try discriminate; cbn [combine] in H.
        + apply bind_inv in H. destruct H as (q & s1 & E & H). apply ret_inv in H. destruct H as [-> _]. cbn in *.
          apply (IH [] [] _ _ _ _ eq_refl So E T).
        + destruct (vname_equal y x).
          * destruct o as [[u e]|]; [|discriminate]. apply bind_inv in H. destruct H as (b & s1 & _ & H).
            apply bind_inv in H. destruct H as (q & s2 & E & H). apply ret_inv in H. destruct H as [-> _]. cbn in *.
            apply andb_prop in T. destruct T as [_ T]. destruct (somes os) as [ys|] eqn:So'; [|discriminate]. injection So as <-. cbn.
            f_equal. eapply IH; eauto.
          * apply bind_inv in H. destruct H as (q & s1 & E & H). apply ret_inv in H. destruct H as [-> _]. cbn [snd present fst] in *.
            apply (IH (y :: args) (o :: os) _ _ _ _ L So E T).
    Qed.
  End parts.

  Lemma data_fields_ok2 chk_type f : (forall e es, ok2 es (chk_type e) no) -> forall l seen es, ok2 es (data_fields chk_type f seen l) no.
  Proof.
    intros T. induction l as [|[x e] l IH]; intros seen es; cbn [data_fields].
    - apply ok2_ret. constructor.
    - eapply ok2_and_then; [apply T|reflexivity|]. intros t. look.
      destruct (x0 && negb (repeated x seen))%bool; [|apply ok2_fail; reflexivity].
      eapply ok2_and_then; [apply IH|reflexivity|]. intros ts. apply ok2_ret. constructor.
  Qed.

  Lemma each_length {A B} (g : A -> M B) : forall l s x s', each g l s = Done x s' -> List.length x = List.length l.
  Proof.
    induction l as [|a l IH]; intros s x s' H; cbn [each] in H; [apply ret_inv in H; destruct H as [-> _]; auto|].
    apply bind_inv in H. destruct H as (y & s1 & _ & H). apply bind_inv in H. destruct H as (ys & s2 & E & H).
    apply ret_inv in H. destruct H as [-> _]. cbn. f_equal. eauto.
  Qed.
  Lemma each_rev_length {A B} (g : A -> M B) : forall l s x s', each_rev g l s = Done x s' -> List.length x = List.length l.
  Proof.
    induction l as [|a l IH]; intros s x s' H; cbn [each_rev] in H; [apply ret_inv in H; destruct H as [-> _]; auto|].
    apply bind_inv in H. destruct H as (ys & s1 & E & H). apply bind_inv in H. destruct H as (y & s2 & _ & H).
    apply ret_inv in H. destruct H as [-> _]. cbn. f_equal. eauto.
  Qed.

  Lemma fst_snd {A B} (p : A * B) : p = (fst p, snd p).
  Proof. destruct p; auto. Qed.

  Theorem check_resolves : forall fuel,
    (forall e es, ok2 es (check module fuel e) (one2 e)) /\ (forall e es, ok2 es (check_type module fuel e) no).
  Proof.
    induction fuel as [|f [IHc IHt]]; [split; intros; apply ok2_more|].
    destruct (check_scoped module f) as [Sc_ St_]. destruct (check_stable module f) as [Bc Bt].
    pose proof (fun e es => for_type_ok2 (check module f) IHc Sc_ e es) as Hf.
    split.
    - intros e es. destruct e; cbn [check].
      + (* typeof *) eapply ok2_and_then; [apply IHt|reflexivity|]. intros t. look. apply ok2_ret. intros sc _. cbn [one2]. give. constructor.
      + (* var *) intros s y s' O N G H. apply and_then_inv in H. destruct H as [[H ->]|(v & s1 & E & H)].
        * destruct (get_var_m_spec _ _ _ _ O H) as (_ & A & B & _). destruct (get_var_m_names _ _ _ _ O N H) as [C _].
          split; [auto|]. split; [auto|]. split; [auto|]. constructor.
        * destruct (get_var_m_spec _ _ _ _ O E) as (_ & A & B & _). destruct (get_var_m_names _ _ _ _ O N E) as [C D].
          apply ret_inv in H. destruct H as [-> ->]. split; [auto|]. split; [auto|]. split; [auto|]. cbn [one2]. give.
          unfold other_place in D. destruct (sv_place v); [constructor|apply res_type_var]; auto.
      + (* module path *) intros s y s' O N G H. apply bind_inv in H. destruct H as (o & s1 & E & H).
        destruct (get_var_m_spec _ _ _ _ O E) as (_ & A & B & _). destruct (get_var_m_names _ _ _ _ O N E) as [C D].
        destruct o as [v|]; [|discriminate]. unfold other_place in D. destruct (sv_place v) as [w|]; [|discriminate].
        apply ret_inv in H. destruct H as [-> ->]. split; [auto|]. split; [auto|]. split; [auto|]. cbn [one2]. give. constructor. auto.
      + apply check_let_ok2; auto.
      + (* data type *) eapply ok2_and_then; [apply IHt|reflexivity|]. intros t. look. apply ok2_ret. intros sc _. cbn [one2]. give. constructor.
      + (* access *) eapply ok2_and_then; [apply IHc|reflexivity|]. intros o. look. look. destruct x0; try (apply ok2_fail; reflexivity).
        destruct (find_field 0 field fields) as [[i t]|]; [|apply ok2_fail; reflexivity].
        apply ok2_ret. intros sc F. destruct o as [u c]. cbn [one2 snd] in *. items. give. constructor; auto.
      + (* struct *) eapply ok2_bind; [apply each_rev_ok2; auto|]. intros os. destruct (somes os) as [xs|] eqn:So; [|apply ok2_fail; reflexivity].
        look. destruct x; [|apply ok2_fail; reflexivity]. look.
        apply ok2_ret. intros sc F. unfold all2 in F. rewrite So in F. items. cbn [one2]. give. constructor; auto.
      + (* copy *) eapply ok2_and_then; [apply IHc|reflexivity|]. intros s0. look. look.
        destruct x0 as [[|] fields| | | | | | | ]; try (apply ok2_fail; reflexivity).
        intros s y s' O N G H. apply bind_inv in H. destruct H as (os & s1 & E & H). pose proof (each_rev_length _ _ _ _ _ E) as Lo.
        destruct (each_rev_ok2 _ IHc args (one2 e (Some s0) ++ es) _ _ _ O N G E) as (O1 & S1 & N1 & G1).
        pose proof (ress_ext _ _ _ S1 N1 G) as G1'.
        apply bind_inv in H. destruct H as (r & s2 & E2 & H). destruct (copy_fields_ok f fields (combine (map fst args) os)) as [K _].
        pose proof (K _ _ _ E2) as Sc. apply ret_inv in H. destruct H as [-> ->]. rewrite Sc.
        split; [auto|]. split; [auto|]. split; [auto|]. destruct (somes os) as [xs|] eqn:So; [|constructor]. destruct (fst r) eqn:T; [|constructor].
        assert (P : present (snd r) = map snd xs).
        { eapply copy_fields_present; eauto. rewrite map_length. auto. }
        unfold all2 in G1. rewrite So in G1. destruct s0 as [u c]. cbn [one2 snd] in *. items. give. apply res_copy; auto. rewrite P. auto.
      + (* union *) eapply ok2_and_then; [apply IHt|reflexivity|]. intros t. look. look.
        destruct x0 as [[|] fields| | | | | | | ]; try apply ok2_bad; [|apply ok2_fail; reflexivity].
        destruct (find_field 0 field fields) as [[tag ft]|]; [|apply ok2_fail; reflexivity].
        eapply ok2_and_then; [apply IHc|reflexivity|]. intros a.
        eapply ok2_and_then; [apply ok2_keeps; auto with keeps|reflexivity|]. intros q.
        apply ok2_ret. intros sc F. destruct a as [u c]. cbn [one2 snd no app] in *. items. give. constructor; auto.
      + apply check_select_ok2; auto.
      + (* func type *) eapply ok2_and_then; [apply IHt|reflexivity|]. intros t. look. apply ok2_ret. intros sc _. cbn [one2]. give. constructor.
      + (* func *) eapply ok2_and_then; [apply IHt|reflexivity|]. intros t. intros s y s' O N G H.
        apply bind_inv in H. destruct H as ([] & s1 & E1 & H). unfold push_frame in E1. injection E1 as <-.
        apply bind_inv in H. destruct H as (o & s2 & E2 & H).
        apply IHc with (es := []) in E2; [|apply (new_frame_ok s); auto|apply new_frame_names; auto|constructor].
        destruct E2 as (O2 & S2 & N2 & G2). cbn [scopes] in S2.
        apply bind_inv in H. destruct H as (fr & s3 & E3 & H).
        unfold pop_frame in E3. inversion S2 as [|? fr' ? r' X S2' E4 E5]; subst. rewrite <- E5 in E3. injection E3 as <- <-.
        rewrite <- E5 in O2, N2, G2. destruct O2 as (F2 & C2 & O2). destruct N2 as (I2 & N2).
        assert (Z : scopes_ok r' /\ sext (scopes s) r' /\ names_ok r') by auto.
        destruct o as [[rt b]|]; [destruct (f_captured fr') as [scope|] eqn:Ec|].
        * apply bind_inv in H. destruct H as (n & s4 & E & H). pose proof (keeps_alloc _ _ _ _ E) as Sc. cbn in Sc.
          apply ret_inv in H. destruct H as [-> ->]. rewrite Sc. destruct Z as (Z1 & Z2 & Z3). split; [auto|]. split; [auto|]. split; [auto|].
          cbn [one2] in *. items. give.
          assert (Ll : f_locals fr' = []). { pose proof (x_locals _ _ X) as Xl. cbn in Xl. inversion Xl; auto. }
          assert (Ea : exists v, f_args fr' = [v] /\ sv_name v = Plain arg /\ sv_place v = Some (CodeModel.Arg 0)).
          { pose proof (x_args _ _ X) as Xa. cbn in Xa. inversion Xa as [|? v ? ? Hv Xn]; subst. inversion Xn; subst. exists v. split; auto.
            destruct Hv as (V1 & _ & V3 & _). auto. }
          destruct Ea as (v & Ea & Hv & Pv).
          set (HE := fun j => match firstv j (f_statics fr') with Some v => Some (other_place v) | None => outer (scope_env r' j) end).
          apply (res_func _ _ _ _ _ _ HE).
          { intros j. unfold HE. destruct (firstv j (f_statics fr')) as [w|] eqn:Ef.
            - destruct (firstv_in _ _ _ Ef) as (Hk & i & Hi). pose proof (placed_nth _ _ _ _ _ (o_statics _ F2) Hi) as P.
              unfold other_place. rewrite P. destruct (I2 _ _ Hi) as [_ I]. destruct (I _ Ec) as (w' & A & B).
              exists (0 + i), w'. split; [auto|]. split; [auto|]. rewrite <- Hk. auto.
            - destruct (scope_env r' j) as [[]|]; cbn; auto. }
          assert (Sz : f_allocated fr' = 0) by (rewrite (x_allocated _ _ X); reflexivity).
          cbn [size] in H1. rewrite Sz in H1. eapply resolves_le; [exact H1|].
          intros j p Ep Np. cbn in Ep. rewrite Ll, Ea in Ep. cbn [lastv] in Ep. unfold ResolveSpec.bind, HE. unfold keyed in Ep. rewrite Hv in Ep. cbn in Ep.
          destruct (key_dec j (named arg)); auto. unfold other_place in Ep. rewrite Pv in Ep. auto.
        * apply ret_inv in H. destruct H as [-> ->]. destruct Z as (Z1 & Z2 & Z3). repeat (split; auto). constructor.
        * apply ret_inv in H. destruct H as [-> ->]. destruct Z as (Z1 & Z2 & Z3). repeat (split; auto). constructor.
      + (* poly *) destruct ((kind_level k =? 1) && v_type arg)%bool; [|apply ok2_fail; reflexivity]. look. look.
        destruct x0 as [pa|]; [|apply ok2_bad].
        intros s y s' O N G H. apply bind_inv in H. destruct H as ([] & s1 & E1 & H). unfold push_local_type, on_frame in E1.
        destruct (scopes s) as [|fr r] eqn:Sc; [discriminate|]. injection E1 as <-.
        apply bind_inv in H. destruct H as (o & s2 & E2 & H).
        assert (Vx : forall l v, sv_place v = None -> values (l ++ [v]) = values l).
        { intros l v Hv. rewrite values_app. cbn. unfold is_value at 1. rewrite Hv. apply app_nil_r. }
        destruct O as ([F1 F2 F3 F4] & C & O). destruct N as [Nc N].
        apply IHc with (es := []) in E2; [| | |constructor].
        2:{ split; [split; cbn; auto; rewrite Vx; auto|]. split; auto. }
        2:{ split; auto. }
        destruct E2 as (O2 & S2 & N2 & G2). cbn [scopes] in S2. inversion S2 as [|? fr2 ? r2 X S2' E4 E5]; subst.
        apply bind_inv in H. destruct H as ([] & s3 & E3 & H). unfold pop_local, on_frame in E3. rewrite <- E5 in E3. injection E3 as <-.
        pose proof (x_locals _ _ X) as Xl. cbn in Xl. apply F2_app_inv in Xl. destruct Xl as (l2 & m2 & El & V1 & V2).
        inversion V2 as [|? v2 ? ? Hv V3]; subst. inversion V3; subst. rewrite El in H. rewrite removelast_last, last_app_one in H.
        assert (Pv : sv_place v2 = None) by (destruct Hv as (_ & _ & -> & _); reflexivity).
        assert (Nv : sv_name v2 = Plain arg) by (destruct Hv as (-> & _); reflexivity).
        assert (Ea : match v2 with MkVar _ _ _ None => f_allocated fr2 | _ => pred (f_allocated fr2) end = f_allocated fr2).
        { destruct v2 as [? ? ? [|]]; [discriminate|auto]. }
        rewrite Ea in H. rewrite <- E5 in O2, N2, G2. destruct O2 as ([G3 G4 G5 G6] & C2 & O2). rewrite El, Vx in G5, G6 by auto.
        destruct N2 as [Nc2 N2].
        set (frp := MkFrame (f_statics fr2) (f_args fr2) l2 (f_allocated fr2) (f_captured fr2)) in *.
        assert (OK' : scopes_ok (frp :: r2)).
        { split; [split; auto|]. split; auto. }
        assert (SX : sext (fr :: r) (frp :: r2)).
        { constructor; auto. destruct X as [X1 X2 X3 X4 X5]. split; auto. }
        assert (NK : names_ok (frp :: r2)) by (split; auto).
        destruct o as [[bt b]|].
        * apply bind_inv in H. destruct H as (n & s4 & E & H). pose proof (keeps_new_poly _ _ _ _ _ _ E) as Sc4. cbn in Sc4.
          apply ret_inv in H. destruct H as [-> ->]. rewrite Sc4. split; [auto|]. split; [auto|]. split; [auto|]. cbn [one2] in *. items. give.
          constructor. cbn [size frp f_allocated] in *. eapply resolves_le; [eassumption|].
          intros j p Ep Np. cbn [scope_env] in Ep. rewrite El, lastv_app in Ep. cbn [lastv] in Ep. unfold keyed in Ep. rewrite Nv in Ep. cbn [key_of] in Ep.
          unfold ResolveSpec.bind. destruct (key_dec j (named arg)); auto. unfold local_place in Ep. rewrite Pv in Ep. auto.
        * apply ret_inv in H. destruct H as [-> ->]. split; [auto|]. split; [auto|]. split; [auto|]. constructor.
      + (* poly apply *) eapply ok2_bind; [apply IHc|]. intros op. eapply ok2_bind; [apply Hf|]. intros oa. cbn [no app].
        destruct op as [p|]; [|apply ok2_fail; reflexivity]. destruct oa as [a|]; [|apply ok2_fail; reflexivity].
        intros s y s' O N G H. assert (K : scopes s' = scopes s) by (eapply (keeps_poly_apply f p a); eauto). rewrite K.
        split; [auto|]. split; [apply sext_refl|]. split; [auto|]. destruct y as [[t c]|]; [|constructor]. apply poly_apply_snd in H.
        destruct p as [u d]. cbn [one2 snd] in *. items. give. destruct H as [-> | ->]; [apply res_poly_apply|eapply res_poly_apply_type]; eauto.
      + (* list *) eapply ok2_and_then; [apply IHc|reflexivity|]. intros g. intros s y s' O N G H.
        apply bind_inv in H. destruct H as (p & s1 & E1 & H). pose proof (depoly_no_type _ _ _ _ _ E1) as NT.
        pose proof (stable_depoly _ _ _ _ _ _ E1) as P1. assert (K1 : scopes s1 = scopes s) by (eapply (keeps_depoly f (fst g) []); eauto).
        apply bind_inv in H. destruct H as (d & s2 & E2 & H). pose proof (stable_get _ _ _ _ E2) as P2.
        assert (K2 : scopes s2 = scopes s1) by (eapply keeps_get; eauto).
        assert (Hx : forall s0, scopes s0 = scopes s -> scopes_ok (scopes s0) /\ sext (scopes s) (scopes s0) /\ names_ok (scopes s0)).
        { intros s0 Hs. rewrite Hs. auto using sext_refl. }
        destruct d; try (apply ret_inv in H; destruct H as [-> ->]; destruct (Hx s2) as (A & B & D); [congruence|];
                         split; [auto|]; split; [auto|]; split; [auto|constructor]).
        apply and_then_inv in H. destruct H as [[E3 ->]|(elem & s3 & E3 & H)].
        { assert (K3 : scopes s' = scopes s2) by (eapply (keeps_list_element f arg); eauto). destruct (Hx s') as (A & B & D); [congruence|].
          split; [auto|]; split; [auto|]; split; [auto|constructor]. }
        assert (K3 : scopes s3 = scopes s2) by (eapply (keeps_list_element f arg); eauto). pose proof (stable_list_element _ _ _ _ _ E3) as P3.
        apply bind_inv in H. destruct H as (os & s4 & E4 & H). destruct (Hx s3) as (O3 & S3 & N3); [congruence|].
        assert (G3 : Forall (res (scopes s3)) (one2 e (Some g) ++ es)) by (rewrite K3, K2, K1; auto).
        destruct (each_ok2 _ IHc args _ _ _ _ O3 N3 G3 E4) as (O4 & S4 & N4 & G4).
        pose proof (stable_each _ Bc _ _ _ _ E4) as P4.
        destruct (somes os) as [xs|] eqn:So.
        2:{ apply ret_inv in H. destruct H as [-> ->]. split; [auto|]. split; [eapply sext_trans; eauto|]. split; [auto|constructor]. }
        assert (NT4 : snd p = [] \/ no_type (types s4) (fst g)).
        { destruct NT as [NT|NT]; [auto|right]. eapply no_type_pres; [|exact NT]. eauto using pres_trans. }
        assert (Z : forall sc, scopes sc = scopes s4 -> scopes_ok (scopes sc) /\ sext (scopes s) (scopes sc) /\ names_ok (scopes sc)).
        { intros sc ->. split; [auto|]. split; [eapply sext_trans; eauto|auto]. }
        apply and_then_inv in H. destruct H as [[E5 ->]|(q & s5 & E5 & H)].
        { assert (K5 : scopes s' = scopes s4) by (eapply keeps_infer_args; eauto). destruct (Z _ K5) as (A & B & D).
          split; [auto|]; split; [auto|]; split; [auto|constructor]. }
        assert (K5 : scopes s5 = scopes s4) by (eapply keeps_infer_args; eauto). apply infer_args_exact in E5; auto.
        apply bind_inv in H. destruct H as (n & s6 & E6 & H). assert (K6 : scopes s6 = scopes s5) by (eapply keeps_normal; eauto).
        apply bind_inv in H. destruct H as (ft & s7 & E7 & H). assert (K7 : scopes s7 = scopes s6) by (eapply keeps_get; eauto).
        destruct ft; try discriminate. apply ret_inv in H. destruct H as [-> ->]. assert (K8 : scopes s7 = scopes s4) by congruence. destruct (Z _ K8) as (A & B & D).
        split; [auto|]; split; [auto|]; split; [auto|]. rewrite K8. unfold all2 in G4. rewrite So in G4.
        pose proof (ress_ext _ _ _ S4 N4 G3) as G5. destruct g as [u c]. cbn [one2 snd] in *. items. give. rewrite E5. constructor; auto.
      + (* literal *) eapply ok2_and_then; [apply IHc|reflexivity|]. intros g. look. look. destruct x0; try (apply ok2_fail; reflexivity).
        eapply ok2_and_then; [apply ok2_keeps; auto with keeps|reflexivity|]. intros elem. cbn [no app]. look. look.
        destruct x1 as [[|] fields| | | | | | | ]; try (apply ok2_fail; reflexivity). look.
        eapply ok2_and_then; [apply ok2_keeps; auto with keeps|reflexivity|]. intros ls. apply ok2_ret. intros sc F.
        destruct g as [u c]. cbn [one2 snd no app] in *. items. give. constructor; auto.
      + (* package *) eapply ok2_and_then; [apply IHt|reflexivity|]. intros t. look. apply ok2_ret. intros sc _. cbn [one2]. give. constructor.
      + (* cast *) eapply ok2_and_then; [apply IHt|reflexivity|]. intros pt. look. look. destruct x0; try (apply ok2_fail; reflexivity).
        eapply ok2_and_then; [apply IHt|reflexivity|]. intros t. eapply ok2_and_then; [apply IHc|reflexivity|]. intros v.
        destruct (belongs module path); [|apply ok2_fail; reflexivity]. destruct opaque; [|apply ok2_bad].
        look. look. look. look. look. apply ok2_ret. intros sc F. destruct x2; [|constructor].
        destruct v as [u c]. cbn [one2 snd no app] in *. items. give. constructor; auto.
      + (* abstract access *) eapply ok2_and_then; [apply IHc|reflexivity|]. intros v. look. look. destruct x0; try (apply ok2_fail; reflexivity).
        look. destruct x0; try apply ok2_bad. destruct (belongs module path); [|apply ok2_fail; reflexivity].
        apply ok2_ret. intros sc F. destruct v as [u c]. cbn [one2 snd no app] in *. items. give. constructor; auto.
      + apply check_apply_ok2; auto.
    - intros e es. destruct e; cbn [check_type];
        try (eapply ok2_and_then; [apply Hf|reflexivity|]; intros t; apply ok2_keeps; auto with keeps; fail).
      + apply Hf.
      + eapply ok2_and_then; [apply data_fields_ok2; auto|reflexivity|]. intros fs. look. apply ok2_ret. constructor.
      + eapply ok2_bind; [apply IHt|]. intros oa. eapply ok2_bind; [apply IHt|]. intros ob.
        destruct oa; [|apply ok2_fail; reflexivity]. destruct ob; [|apply ok2_fail; reflexivity]. look. apply ok2_ret. constructor.
      + look. apply ok2_ret. constructor.
  Qed.
End check.

(** ** A module, and the program *)
Lemma modules_env : forall ps ts i G j, List.length ts = List.length ps ->
  bind_modules i ps G j = match lastv j (arg_vars i (combine (map Mod ps) ts)) with Some v => Some (other_place v) | None => G j end.
Proof.
  induction ps as [|p ps IH]; intros [|t ts] i G j L; cbn; try discriminate; auto.
  rewrite (IH ts) by (cbn in L; lia). destruct (lastv j (arg_vars (S i) (combine (map Mod ps) ts))); auto.
  unfold rbind, keyed. cbn. destruct (key_dec j (Module p)); auto.
Qed.
Definition module_named (m : lmodule) (o : option (nat * option tc)) : Prop :=
  match o with
  | Some (_, Some c) => exists e, lm_value m = Some e /\ resolves 0 (bind_modules 0 (lm_deps m) empty) e c
  | Some (_, None) => lm_value m = None
  | None => True
  end.
Lemma module_resolves fuel m deps s o s' : scopes s = [] -> List.length deps = List.length (lm_deps m) ->
  check_module fuel m deps s = Done o s' -> module_named m o.
Proof.
  intros S0 L H.
  set (fr0 := new_frame None (combine (map Mod (lm_deps m)) deps)) in *.
  assert (O1 : scopes_ok [fr0]).
  { cbn. split; [|split; auto]. split; cbn; auto. apply CheckProps.arg_vars_placed. }
  assert (N1 : names_ok [fr0]) by (apply new_frame_names; cbn; auto).
  unfold check_module in H. fold fr0 in H.
  assert (Hv : lm_value m <> None \/ lm_type m <> None).
  { destruct (lm_type m), (lm_value m); try discriminate; auto; left; discriminate. }
  assert (H' : bind (push_frame fr0) (fun _ => bind match lm_type m with
            | None => ret (Some None)
            | Some _ =>
                match lm_value m with
                | None => bad
                | Some v => bind (check_type (lm_path m) fuel v)
                            (fun o => ret (match o with Some t => Some (Some t) | None => None end))
                end
            end (fun type => match type with
    | None => bind pop_frame (fun _ => ret None)
    | Some ot => bind (match lm_value m with
             | None => ret (Some None)
             | Some v => bind (check (lm_path m) fuel v)
                         (fun o => ret (match o with Some r => Some (Some r) | None => None end))
             end) (fun o => bind pop_frame (fun _ => match o with
        | None => ret None
        | Some r =>
            match ot, r with
            | Some t, Some (u, e) => bind (equal_m fuel t u) (fun b => ret (if b : bool then Some (u, Some e) else None))
            | Some t, None => ret (Some (t, None))
            | None, Some (u, e) => ret (Some (u, Some e))
            | None, None => ret None
            end
        end))
    end)) s = Done o s').
  { destruct (lm_type m), (lm_value m); try exact H. discriminate. }
  clear H Hv. apply bind_inv in H'. destruct H' as ([] & s1 & E1 & H). unfold push_frame in E1. rewrite S0 in E1. injection E1 as <-.
  apply bind_inv in H. destruct H as (ot & s2 & E2 & H).
  destruct (check_resolves (lm_path m) fuel) as [Cc Ct].
  assert (O2 : scopes_ok (scopes s2) /\ sext [fr0] (scopes s2) /\ names_ok (scopes s2)).
  { destruct (lm_type m) as [ty|].
    - destruct (lm_value m) as [v|]; [|discriminate]. apply bind_inv in E2. destruct E2 as (x & s3 & E3 & E2).
      apply ret_inv in E2. destruct E2 as [_ ->].
      destruct (Ct v [] (MkState (types s) [fr0]) _ _ O1 N1 (Forall_nil _) E3) as (A & B & C & _). auto.
    - apply ret_inv in E2. destruct E2 as [_ ->]. cbn [scopes]. auto using sext_refl. }
  destruct O2 as (O2 & X2 & N2). destruct ot as [ot|].
  2:{ apply bind_inv in H. destruct H as (fr & s3 & E3 & H). apply ret_inv in H. destruct H as [-> _]. exact I. }
  apply bind_inv in H. destruct H as (r & s3 & E3 & H). apply bind_inv in H. destruct H as (fr & s4 & E4 & H).
  assert (G : match r with
    | Some (Some (_, c)) => exists e, lm_value m = Some e /\ resolves 0 (bind_modules 0 (lm_deps m) empty) e c
    | Some None => lm_value m = None
    | None => True
    end).
  { destruct (lm_value m) as [v|].
    - apply bind_inv in E3. destruct E3 as (x & s5 & E5 & E3). apply ret_inv in E3. destruct E3 as [-> ->].
      destruct (Cc v [] _ _ _ O2 N2 (Forall_nil _) E5) as (A & B & C & D).
      destruct x as [[u c]|]; auto. exists v. split; auto. cbn [one2] in D. items.
      assert (X : sext [fr0] (scopes s5)) by (eapply sext_trans; eauto).
      destruct (scopes s5) as [|fr1 [|fr2 r]]; inversion X as [|? ? ? ? X1 X3]; subst; [|inversion X3].
      cbn [size] in H0. rewrite (x_allocated _ _ X1) in H0. cbn [new_frame f_allocated fr0] in H0.
      eapply resolves_le; [exact H0|]. intros j p Ep Np. cbn [scope_env] in Ep.
      destruct A as (_ & (St & _) & _). rewrite St in Ep.
      pose proof (x_locals _ _ X1) as Fl. cbn in Fl. assert (El : f_locals fr1 = []) by (inversion Fl; auto). rewrite El in Ep. cbn [lastv firstv outer empty] in Ep.
      rewrite (modules_env _ deps) by auto.
      pose proof (lastv_vle j _ _ (x_args _ _ X1)) as Hl. cbn [fr0 new_frame f_args] in Hl.
      destruct (lastv j (f_args fr1)) as [v1|]; [|discriminate].
      destruct (lastv j (arg_vars 0 (combine (map Mod (lm_deps m)) deps))) as [v0|]; [|contradiction].
      rewrite <- Ep. f_equal. symmetry. apply other_vle; auto.
    - apply ret_inv in E3. destruct E3 as [-> ->]. auto. }
  destruct r as [[[u c]|]|]; destruct ot as [t|]; try (apply ret_inv in H; destruct H as [-> _]; exact G || exact I).
  apply bind_inv in H. destruct H as (b & s5 & E5 & H). apply ret_inv in H. destruct H as [-> _]. destruct b; [exact G|exact I].
Qed.

Lemma modules_resolve fuel ms : forall done_ s os s', scopes s = [] -> check_modules fuel ms done_ s = Done os s' ->
  Forall2 module_named ms os.
Proof.
  induction ms as [|m ms IH]; intros done_ s os s' S0 H; cbn [check_modules] in H.
  - apply ret_inv in H. destruct H as [-> _]. constructor.
  - apply bind_inv in H. destruct H as (o & s1 & E1 & H). apply bind_inv in H. destruct H as (os' & s2 & E2 & H).
    apply ret_inv in H. destruct H as [-> ->].
    assert (R : scopes s1 = [] /\ module_named m o).
    { destruct (somes (map (fun d => find_type d done_) (lm_deps m))) as [deps|] eqn:E.
      - apply CheckProps.somes_length in E. rewrite map_length in E. split.
        + eapply CheckProps.module_scoped; eauto.
        + eapply module_resolves; eauto.
      - apply ret_inv in E1. destruct E1 as [-> ->]. cbn. auto. }
    destruct R as [S1 R]. constructor; eauto.
Qed.

(** ** C50: in a program that the type checker accepts, the code of a module is that of its
    body with each name standing for its innermost binding: a let binding or function
    parameter hides those of the same name around it, a function reads its own argument and
    what it captured from where it was made, a module reads what it imports by path; the
    parts of each expression are all there, in their order. *)
Theorem accepted_names_resolve : forall fuel ms tcs s, check_program fuel ms = Done (Some tcs) s ->
  Forall2 (fun m o => match o with
                      | Some c => exists e, lm_value m = Some e /\ resolves 0 (bind_modules 0 (lm_deps m) empty) e c
                      | None => lm_value m = None
                      end) ms tcs.
Proof.
  unfold check_program. intros fuel ms tcs s H. apply bind_inv in H. destruct H as (os & s1 & E1 & H). apply ret_inv in H.
  destruct H as [E ->]. apply modules_resolve in E1; auto. destruct (somes os) as [rs|] eqn:Es; [|discriminate]. injection E as ->.
  revert rs Es. induction E1 as [|m o ms os R E1 IH]; intros rs Es; cbn in Es.
  - injection Es as <-. constructor.
  - destruct o as [[t o]|]; [|discriminate]. destruct (somes os) as [rs'|]; [|discriminate]. injection Es as <-.
    cbn. constructor; auto.
Qed.

(** ** Examples *)
Section examples.
  Let n (x : string) : vname := MkVName x false 0.
  Let t (x : string) : vname := MkVName x true 0.
  Local Open Scope string_scope.
  Import CodeModel(var(..)).
  Import CompileModel(tc(..)).

  (** [(Unit@ x) { (Unit@ y) { x = y; (Unit@ z) { x; }; }; }]: the inner [x], that hides the
      outer one, is captured; and a recursive function. *)
  Definition shadow_program : list lmodule :=
    [MkLModule ["M"] [] None (Some (EApply false (EDataType false []) []));
     MkLModule ["N"] [["M"]] None (Some
      (ELet [(t "Unit", inl (Basic 1), EDataType false [])]
        (ELet [(n "f", inr (EFuncType (EVar (t "Unit")) (EVar (t "Unit"))),
                EFunc (n "x") (EVar (t "Unit")) (EApply false (EVar (n "f")) [EVar (n "x")]))]
          (EStruct
            [(n "a", EFunc (n "x") (EVar (t "Unit"))
                       (EFunc (n "y") (EVar (t "Unit"))
                         (ELet [(n "x", inl (Basic 0), EVar (n "y"))]
                           (EFunc (n "z") (EVar (t "Unit")) (EVar (n "x"))))));
             (n "b", EApply false (EVar (n "f")) [EModulePath ["M"]])]))))].
  Definition shadow_code : tc :=
    TLet false [TType]
      (TLet true [TFunc [Local 1] (TApply (TVar (Static 0)) (TVar (Arg 0)))]
        (TStruct
          [TFunc [] (TFunc [] (TLet false [TVar (Arg 0)] (TFunc [Local 0] (TVar (Static 0)))));
           TApply (TVar (Local 1)) (TVar (Arg 0))])).
  Definition shadow_result := Eval vm_compute in check_program 30 shadow_program.
  Definition shadow_state : state := Eval vm_compute in
    match shadow_result with Done _ s => s | _ => MkState [] [] end.
  Theorem shadow_accepted : check_program 30 shadow_program = Done (Some [Some (TStruct []); Some shadow_code]) shadow_state.
  Proof. vm_compute. reflexivity. Qed.

  (** The inner function with the outer [x] instead of the inner one: no code of it. *)
  Theorem shadow_only_inner : ~ resolves 0 (rbind (named (n "x")) (At (Arg 0)) empty)
    (ELet [(n "x", inl (Basic 0), EApply false (EDataType false []) [])] (EVar (n "x")))
    (TLet false [TStruct []] (TVar (Arg 0))).
  Proof.
    intros R. inversion R; subst.
    match goal with Rb : resolves _ _ (EVar _) _ |- _ => inversion Rb; subst end.
    match goal with E : bind_locals _ _ _ _ _ = _ |- _ => vm_compute in E; discriminate end.
  Qed.
End examples.
