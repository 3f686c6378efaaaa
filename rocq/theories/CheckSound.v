(** * What the type checker accepts is well typed: proofs for CheckProps.v. *)
From Coq Require Import String List Arith Bool ZArith Lia.
From Verif Require CodeModel CompileModel CompileStatic.
From Verif Require Import KindModel UnusedModel TypeModel TypeSpec TypeProps CheckModel CheckScope CheckScoped CheckTyping CheckSafe CheckGrow
  CheckOps CheckLet CheckSafeSpec CheckTyped.
Import ListNotations.
Local Open Scope list_scope.
Local Notation tc := CompileModel.tc.

(** The types of the variables in the innermost scope. *)
Definition top_s (sc : list frame) : list nat := match sc with [] => [] | fr :: _ => map sv_type (f_statics fr) end.
Definition top_a (sc : list frame) : list nat := match sc with [] => [] | fr :: _ => map sv_type (f_args fr) end.
Definition top_l (sc : list frame) : list (option nat) := match sc with [] => [] | fr :: _ => ltypes fr end.
Lemma top_typed_eq st sc e t : top_typed st sc e t = typed st (top_s sc) (top_a sc) (top_l sc) e t.
Proof. destruct sc; reflexivity. Qed.

Lemma all2_map_snd st Ss As Ls (xs : list (nat * tc)) : Forall (fun p => typed st Ss As Ls (snd p) (fst p)) xs ->
  all2 (typed st Ss As Ls) (map snd xs) (map fst xs).
Proof. intros F. apply all2_F2. induction F; cbn; constructor; auto. Qed.
Lemma all2_conv_snd st Ss As Ls (xs : list (nat * tc)) ts : plain st -> Forall (fun p => typed st Ss As Ls (snd p) (fst p)) xs ->
  Forall2 (conv st) ts (map fst xs) -> all2 (typed st Ss As Ls) (map snd xs) ts.
Proof.
  intros Si F C. apply all2_F2. revert ts C. induction F as [|[t e] xs T F IH]; intros ts C; inversion C; subst; cbn; constructor; auto.
  cbn in T. eapply typed_conv; eauto. apply conv_sym; auto.
Qed.
Lemma tyd_typed s xs : Forall (tyd s) xs -> Forall (fun p => typed (types s) (top_s (scopes s)) (top_a (scopes s)) (top_l (scopes s)) (snd p) (fst p)) xs.
Proof. apply Forall_impl. intros p [_ T]. rewrite top_typed_eq in T. exact T. Qed.
Lemma tyd_lt s xs : Forall (tyd s) xs -> Forall (fun t => t < List.length (types s)) (map fst xs).
Proof. intros F. induction F as [|p xs [L _] F IH]; cbn; auto. Qed.
Lemma map_snd_combine {A B} : forall (l : list A) (m : list B), List.length l = List.length m -> map snd (combine l m) = m.
Proof. induction l; intros [|b m] H; cbn in *; try discriminate; auto. f_equal. auto. Qed.
Lemma somes_len {A} : forall (os : list (option A)) xs, somes os = Some xs -> List.length xs = List.length os.
Proof.
  induction os as [|[x|] os IH]; intros xs H; cbn in H; try discriminate; [injection H as <-; auto|].
  destruct (somes os) as [ys|]; [|discriminate]. injection H as <-. cbn. f_equal. auto.
Qed.
Lemma somes_map {A} : forall (os : list (option A)) xs, somes os = Some xs -> os = map Some xs.
Proof.
  induction os as [|[x|] os IH]; intros xs H; cbn in H; try discriminate; [injection H as <-; auto|].
  destruct (somes os) as [ys|]; [|discriminate]. injection H as <-. cbn. f_equal. auto.
Qed.
Lemma each_rev_len {A B} (g : A -> M B) : forall l s os s', each_rev g l s = Done os s' -> List.length os = List.length l.
Proof.
  induction l as [|a l IH]; intros s os s' H; cbn [each_rev] in H; [inv_ret H; subst; auto|].
  inv_bind H ys s1 E1. inv_bind H y s2 E2. inv_ret H. subst. cbn. f_equal. eauto.
Qed.
Lemma fields_lt st n u fs : flat st -> get st n = Some (TData u fs) -> Forall (fun t => t < List.length st) (map snd fs).
Proof. intros F E. pose proof (fl_node _ F _ _ E) as W. cbn in W. clear - W. induction W; cbn; auto. Qed.
Lemma func_lt st n x r : flat st -> get st n = Some (TFunc x r) -> x < List.length st /\ r < List.length st.
Proof. intros F E. exact (fl_node _ F _ _ E). Qed.
Lemma whnf_lt' st t n : whnf st t n -> n < List.length st.
Proof. intros W. destruct (whnf_node _ _ _ W) as (d & E & _). eapply get_lt; eauto. Qed.

Lemma copy_fields_ty f s : fine s -> forall fields args r s', Forall (fun t => t < List.length (types s)) (map snd fields) ->
  Forall (fun a => match snd a with Some p => tyd s p | None => True end) args -> copy_fields f fields args s = Done r s' ->
  s' = s /\ (fst r = true -> all2 (fun o u => match o with Some e => top_typed (types s) (scopes s) e u | None => True end) (snd r) (map snd fields)).
Proof.
  intros F. induction fields as [|[x t] fields IH]; intros args r s' Hf Ha H; cbn [copy_fields] in H.
  - inv_ret H. subst. cbn. auto.
  - cbn in Hf. apply Forall_cons_iff in Hf. destruct Hf as [Lt Hf].
    assert (Miss : forall args', Forall (fun a => match snd a with Some p => tyd s p | None => True end) args' ->
      bind (copy_fields f fields args') (fun r => ret (fst r, None :: snd r)) s = Done r s' ->
      s' = s /\ (fst r = true -> all2 (fun o u => match o with Some e => top_typed (types s) (scopes s) e u | None => True end) (snd r) (t :: map snd fields))).
    { intros args' Ha' H'. inv_bind H' q s1 E1. inv_ret H'. subst. apply IH in E1; auto. destruct E1 as [-> E1]. cbn. auto. }
    destruct args as [|[y a] args]; [apply (Miss []); auto|].
    destruct (vname_equal y x); [|apply (Miss ((y, a) :: args)); auto].
    apply Forall_cons_iff in Ha. destruct Ha as [Ta Ha]. destruct a as [[u e]|]; [|discriminate]. cbn in Ta.
    inv_bind H b s1 E1. apply equal_m_ok in E1; auto; [|apply Ta]. destruct E1 as [-> E1].
    inv_bind H q s2 E2. apply IH in E2; auto. destruct E2 as [-> E2]. inv_ret H. subst. cbn. split; auto. intros T.
    apply andb_prop in T. destruct T as [-> T]. split; auto. destruct Ta as [_ Ta]. cbn in Ta. rewrite top_typed_eq in *.
    eapply typed_conv; eauto using fine_plain. apply conv_sym; auto.
Qed.

(** ** Casts *)
Lemma equal_open s f a b r s' : well_formed (types s) -> a < List.length (types s) -> b < List.length (types s) ->
  equal_m f a b s = Done r s' -> s' = s /\ (r = true -> eqv (types s) [] a b).
Proof.
  intros Wf La Lb H. unfold equal_m in H. inv_bind H q s1 E0. rename E0 into E. inv_ret H. unfold infer_m, type_infer in E.
  rewrite (types_equal_te _ Wf) in E by auto. destruct (te f (types s) [] a b) as [q'|] eqn:Eq; [|discriminate].
  cbn in E. injection E as <- <-. cbn in H. subst r. rewrite state_eta. split; auto. intros ->.
  exists (L (types s)). split; [apply step_bisimulation; [auto|apply L_step]|].
  intros n. apply (te_sound _ Wf _ _ _ _ Eq [] []); intros x y [].
Qed.
Lemma put_same : forall st n t u, get st n = Some t -> put (put st n u) n t = st.
Proof.
  unfold get. induction st as [|x st IH]; intros [|n] t u E; cbn in *; try discriminate; [injection E as ->; auto|]. f_equal. auto.
Qed.
Lemma opens_put : forall st n path, get st n = Some (TPackage path true) -> opens st (put st n (TPackage path false)).
Proof.
  unfold opens. induction st as [|x st IH]; intros [|n] path E; cbn in *; try discriminate; constructor.
  - unfold get in E. cbn in E. injection E as ->. right. eauto.
  - apply opens_refl.
  - left; auto.
  - apply IH. exact E.
Qed.
Lemma cast_ok s p path f a b s1 r s2 : fine s -> get (types s) p = Some (TPackage path true) -> a < List.length (types s) -> b < List.length (types s) ->
  set_types (put (types s) p (TPackage path false)) s = Done tt s1 -> equal_m f a b s1 = Done r s2 ->
  MkState (put (types s2) p (TPackage path true)) (scopes s2) = s /\ (r = true -> conv (types s) a b).
Proof.
  intros F E La Lb H1 H2. unfold set_types in H1. injection H1 as <-. pose proof (opens_put _ _ _ E) as O.
  apply equal_open in H2; cbn [types] in *; rewrite ?put_length; auto; [|apply (w_wf _ (plain_wide _ _ (fine_plain _ F) O))].
  destruct H2 as [-> H2]. cbn [types scopes]. rewrite put_same by auto. rewrite state_eta. split; auto. intros T. eapply conv_open; eauto.
Qed.

Section check.
  Variable module : list string.
  Section parts.
    Variable chk : expr -> M (option (nat * tc)).
    Variable chk_type : expr -> M (option nat).
    Variable f : nat.
    Hypothesis chk_ty : forall e s p s', monomorphic e = true -> fine s -> chk e s = Done (Some p) s' -> step s s' /\ tyd s' p.
    Hypothesis type_ty : forall e s t s', monomorphic e = true -> fine s -> chk_type e s = Done (Some t) s' ->
      step s s' /\ t < List.length (types s').

    (** *** Select *)
    Definition sel_ok (s : state) (a : select) : Prop :=
      match s_type a with
      | None => s_targets a = []
      | Some t => t < List.length (types s) /\ Forall (fun p => tyd s (t, snd p)) (s_targets a)
      end.
    Lemma sel_ok_step s s' a : fine s -> step s s' -> sel_ok s a -> sel_ok s' a.
    Proof.
      intros F S. unfold sel_ok. destruct (s_type a) as [t|]; auto. intros [L T]. split; [eapply step_lt; eauto|].
      eapply Forall_impl; [|exact T]. intros p. apply tyd_step; auto.
    Qed.
    Lemma select_fields_ok : forall fields i choices hd a s p s', select_fields chk f i fields choices hd a s = Done p s' ->
      s_ok (fst p) = true -> s_ok a = true.
    Proof.
      induction fields as [|[x t] fields IH]; intros i choices hd a s p s' H T; cbn [select_fields] in H.
      - inv_ret H. subst. auto.
      - assert (Miss : forall choices, select_fields chk f (S i) fields choices hd
          (if hd then MkSelect (s_ok a) true (s_type a) (s_targets a) else MkSelect false (s_default a) (s_type a) (s_targets a)) s = Done p s' ->
          s_ok a = true).
        { intros ch H'. apply IH in H'; auto. destruct hd; cbn in H'; auto. discriminate. }
        destruct choices as [|[y e] choices]; [eauto|]. destruct (vname_equal y x); [|eauto].
        inv_bind H r s1 E1. inv_bind H a' s2 E2. apply IH in H; auto. destruct r as [[u b]|].
        + destruct (s_type a) as [w|]; [inv_bind E2 q s3 E3|]; inv_ret E2; subst; cbn in H; auto. apply andb_prop in H. apply H.
        + inv_ret E2. subst. discriminate.
    Qed.
    Lemma select_fields_ty : forall fields i choices hd a s p s', forallb (fun p => monomorphic (snd p)) choices = true -> fine s -> sel_ok s a ->
      select_fields chk f i fields choices hd a s = Done p s' -> s_ok (fst p) = true ->
      step s s' /\ sel_ok s' (fst p) /\ (forall t, s_type a = Some t -> s_type (fst p) = Some t).
    Proof.
      induction fields as [|[x t] fields IH]; intros i choices hd a s p s' M F So H T; cbn [select_fields] in H.
      - inv_ret H. subst. auto using step_refl.
      - assert (Miss : forall choices, forallb (fun p => monomorphic (snd p)) choices = true -> select_fields chk f (S i) fields choices hd
          (if hd then MkSelect (s_ok a) true (s_type a) (s_targets a) else MkSelect false (s_default a) (s_type a) (s_targets a)) s = Done p s' ->
          step s s' /\ sel_ok s' (fst p) /\ (forall t, s_type a = Some t -> s_type (fst p) = Some t)).
        { intros ch M' H'. destruct hd; apply IH in H'; auto. }
        destruct choices as [|[y e] choices]; [eauto|]. destruct (vname_equal y x); [|eauto]. clear Miss.
        cbn in M. apply andb_prop in M. destruct M as [M1 M].
        inv_bind H r s1 E1. inv_bind H a' s2 E2. pose proof (select_fields_ok _ _ _ _ _ _ _ _ H T) as Ta'.
        destruct r as [[u b]|]; [|inv_ret E2; subst; discriminate].
        destruct (chk_ty _ _ _ _ M1 F E1) as [S1 T1]. pose proof (step_fine _ _ S1) as F1. pose proof (sel_ok_step _ _ _ F S1 So) as So1.
        assert (Q : s2 = s1 /\ sel_ok s1 a' /\ (forall t, s_type a = Some t -> s_type a' = Some t)).
        { unfold sel_ok in So1. destruct (s_type a) as [w|] eqn:Et.
          - inv_bind E2 q s3 E3. inv_ret E2. destruct So1 as [Lw So1]. apply equal_m_ok in E3; auto; [|apply T1]. destruct E3 as [-> E3]. subst a'.
            cbn in Ta'. apply andb_prop in Ta'. destruct Ta' as [_ ->]. split; auto. split; auto. unfold sel_ok. cbn. split; auto.
            apply Forall_app. split; auto. constructor; auto. cbn. eapply tyd_conv; eauto. apply conv_sym; auto.
          - inv_ret E2. subst a'. split; auto. split; [|discriminate]. unfold sel_ok. cbn. rewrite So1. split; [apply T1|]. constructor; auto. }
        destruct Q as (-> & Sa' & K). destruct (IH _ _ _ _ _ _ _ M F1 Sa' H T) as (S2 & So2 & K2).
        split; [eapply step_trans; eauto|]. split; auto.
    Qed.
    Lemma check_select_ty c choices default s p s' : monomorphic c = true -> forallb (fun p => monomorphic (snd p)) choices = true ->
      match default with None => true | Some e => monomorphic e end = true -> fine s ->
      check_select chk f c choices default s = Done (Some p) s' -> step s s' /\ tyd s' p.
    Proof.
      intros Mc Mch Md F H. unfold check_select in H. inv_then H c' s1 E1. destruct (chk_ty _ _ _ _ Mc F E1) as [S1 T1].
      pose proof (step_fine _ _ S1) as F1. inv_bind H n s2 E2. apply normal_m_ok in E2; [|apply F1]. destruct E2 as [-> W].
      inv_bind H d s3 E3. apply get_m_ok in E3. destruct E3 as [-> E3]. destruct d as [[|] fields| | | | | | |]; try discriminate.
      inv_bind H dflt s4 E4. inv_bind H q s5 E5. destruct q as [a left_].
      destruct (s_ok a) eqn:Ok; [|discriminate]. destruct left_; [|discriminate]. cbn [andb] in H.
      pose proof (select_fields_ok _ _ _ _ _ _ _ _ E5 Ok) as Ok0. cbn in Ok0.
      set (dt := match dflt with Some (Some (t, _)) => Some t | _ => None end) in *.
      assert (Q : step s1 s4 /\ sel_ok s4 (MkSelect true false dt []) /\
                  match dflt with Some (Some (t, b)) => tyd s4 (t, b) | _ => True end).
      { destruct default as [e|].
        - inv_bind E4 r s6 E6. inv_ret E4. subst dflt. destruct r as [[t b]|]; [|discriminate].
          destruct (chk_ty _ _ _ _ Md F1 E6) as [S6 T6]. split; auto. split; auto. unfold sel_ok. cbn. split; auto. apply T6.
        - inv_ret E4. subst dflt. split; auto using step_refl. split; auto. reflexivity. }
      destruct Q as (S4 & So4 & T4). pose proof (step_fine _ _ S4) as F4. rewrite Ok0 in E5.
      destruct (select_fields_ty _ _ _ _ _ _ _ _ Mch F4 So4 E5 Ok) as (S5 & So5 & K). cbn [fst] in So5, K. pose proof (step_fine _ _ S5) as F5.
      assert (S15 : step s1 s5) by (eapply step_trans; eauto).
      assert (S05 : step s s5) by (eapply step_trans; eauto).
      pose proof (tyd_step _ _ _ F1 S15 T1) as T5. pose proof (fine_plain _ F5) as Si.
      unfold sel_ok in So5. destruct (s_type a) as [t|] eqn:Ta; [|discriminate]. destruct So5 as [Lt So5].
      assert (Fin : forall ts b, Forall (fun p => tyd s5 (t, snd p)) ts -> tyd s5 (t, b) -> tyd s5 (t, CompileModel.TSelect (snd c') (List.length fields) ts b)).
      { intros ts b Hts Hb. split; auto. cbn [fst snd]. rewrite top_typed_eq. cbn [typed]. exists (fst c'), fields.
        destruct T5 as [_ T5]. rewrite top_typed_eq in T5. split; auto. split.
        - eapply data_grow; [apply (fine_plain _ F1)|apply pre_sle, S15|]. eapply data_here; eauto using fine_plain.
        - split; auto. split; [|destruct Hb as [_ Hb]; cbn in Hb; rewrite top_typed_eq in Hb; auto].
          apply all_F. eapply Forall_impl; [|exact Hts]. intros q [_ Hq]. cbn in Hq. rewrite top_typed_eq in Hq. auto. }
      destruct (s_default a).
      - destruct dflt as [[[t' b]|]|]; try discriminate. inv_ret H. injection H as ->. split; auto. apply Fin; auto.
        specialize (K t' eq_refl). injection K as ->. exact (tyd_step _ _ _ F4 S5 T4).
      - destruct (rev (s_targets a)) as [|[j b] r] eqn:Er; [discriminate|]. inv_ret H. injection H as ->. split; auto.
        assert (Et : s_targets a = rev r ++ [(j, b)]). { rewrite <- (rev_involutive (s_targets a)), Er. reflexivity. }
        rewrite Et in So5. apply Forall_app in So5. destruct So5 as [H1 H2]. apply Forall_cons_iff in H2. destruct H2 as [H2 _]. cbn in H2. auto.
    Qed.

    (** *** Application *)
    Lemma apply_args_ty : forall xs g s p s', fine s -> Forall (tyd s) xs -> tyd s g -> apply_args f g xs s = Done (Some p) s' -> s' = s /\ tyd s p.
    Proof.
      induction xs as [|a xs IH]; intros g s p s' F Tx Tg H; cbn [apply_args] in H.
      - inv_ret H. injection H as ->. auto.
      - apply Forall_cons_iff in Tx. destruct Tx as [Ta Tx]. pose proof (fi_flat _ F) as Fl. pose proof (fine_plain _ F) as Si.
        inv_bind H q s1 E1. apply depoly_ok in E1; auto. destruct E1 as (-> & Eq & W).
        inv_bind H d s2 E2. apply get_m_ok in E2. destruct E2 as [-> E2]. destruct d as [|x r| | | | | |]; try discriminate.
        destruct (func_lt _ _ _ _ Fl E2) as [Lx Lr]. rewrite Eq in H. inv_then H q' s3 E3.
        apply infer_args_same in E3; auto; [|constructor; [apply Ta|constructor]]. destruct E3 as (-> & -> & C).
        inversion C as [|? ? ? ? C1 _]; subst.
        inv_bind H n s4 E4. apply normal_m_ok in E4; auto. destruct E4 as [-> W']. pose proof (whnf_det _ _ _ W' _ W) as En. subst n.
        inv_bind H ft s5 E5. apply get_m_ok in E5. destruct E5 as [-> E5]. rewrite E2 in E5. injection E5 as <-.
        apply IH in H; auto. split; auto. cbn [fst snd]. rewrite top_typed_eq. cbn [typed]. exists (fst g), x, r.
        destruct Tg as [_ Tg], Ta as [_ Ta]. rewrite top_typed_eq in Tg, Ta. split; auto. split; [eapply func_here; eauto|].
        split; [|apply conv_refl]. eapply typed_conv; eauto. apply conv_sym; auto.
    Qed.
    Lemma check_apply_ty b misc args s p s' : monomorphic misc = true -> forallb monomorphic args = true -> fine s ->
      check_apply module chk f b misc args s = Done (Some p) s' -> step s s' /\ tyd s' p.
    Proof.
      intros Mm Ma F H. unfold check_apply in H. inv_bind H om s1 E1. inv_bind H os s2 E2.
      destruct om as [m|]; [|discriminate]. destruct (somes os) as [xs|] eqn:Sx; [|discriminate].
      destruct (chk_ty _ _ _ _ Mm F E1) as [S1 T1]. pose proof (step_fine _ _ S1) as F1.
      destruct (each_ty _ chk_ty _ _ _ _ _ Ma F1 E2 Sx) as [S2 T2]. pose proof (step_fine _ _ S2) as F2.
      assert (S02 : step s s2) by (eapply step_trans; eauto). pose proof (tyd_step _ _ _ F1 S2 T1) as Tm.
      pose proof (fi_flat _ F2) as Fl. pose proof (fine_plain _ F2) as Si.
      inv_bind H n s3 E3. apply normal_m_ok in E3; auto. destruct E3 as [-> W]. inv_bind H d s4 E4. apply get_m_ok in E4. destruct E4 as [-> E4].
      assert (App : apply_args f m xs s2 = Done (Some p) s' -> step s s' /\ tyd s' p).
      { intros A. apply apply_args_ty in A; auto. destruct A as [-> A]. auto. }
      destruct b; [auto|]. destruct d as [| | | | | | |vtype]; auto.
      pose proof (fl_node _ Fl _ _ E4) as Lv. cbn in Lv.
      inv_bind H vn s5 E5. apply normal_m_ok in E5; auto. destruct E5 as [-> Wv]. inv_bind H vd s6 E6. apply get_m_ok in E6. destruct E6 as [-> E6].
      assert (Str : bind (depoly f vtype []) (fun p0 => bind (get_m (fst p0)) (fun sd => match sd with
          | TData false fields => and_then (infer_args f (snd p0) (map snd fields) (map fst xs) (vtype, snd m))
               (fun q => ret (Some (fst q, CompileModel.TStruct (map snd xs))))
          | _ => apply_args f m xs end)) s2 = Done (Some p) s' -> step s s' /\ tyd s' p).
      { clear H. intros H. inv_bind H q s7 E7. apply depoly_ok in E7; auto. destruct E7 as (-> & Eq & W7).
        inv_bind H sd s8 E8. apply get_m_ok in E8. destruct E8 as [-> E8].
        destruct sd as [[|] fields| | | | | | |]; auto. rewrite Eq in H. inv_then H q' s9 E9.
        apply infer_args_same in E9; auto; [|eapply fields_lt; eauto|apply tyd_lt; auto]. destruct E9 as (-> & -> & C).
        inv_ret H. injection H as ->. split; auto. split; auto. cbn [fst snd]. rewrite top_typed_eq. cbn [typed].
        eexists. exists fields. split; [apply conv_refl|]. split; [eapply data_here; eauto|]. apply all2_conv_snd; auto. apply tyd_typed; auto. }
      destruct vd as [| | | |path o| | |]; auto. clear Str App.
      destruct xs as [|[t e] [|]]; try discriminate. destruct (belongs module path); [|discriminate].
      apply Forall_cons_iff in T2. destruct T2 as [T2 _].
      inv_bind H a s7 E7. apply alloc_ok in E7; auto; [|cbn; split; [eauto|apply T2]]. destruct E7 as (S7 & L7 & G7 & _).
      inv_ret H. injection H as ->. split; [eapply step_trans; eauto|]. pose proof (step_fine _ _ S7) as F7.
      pose proof (tyd_step _ _ _ F2 S7 T2) as T7. eapply tyd_conv; [exact F7|exact T7|exact L7|]. apply conv_sym. eapply conv_abs; [|exact G7]. eapply whnf_abstract; eauto.
    Qed.

    Lemma data_fields_ty : forall l seen s fs s', forallb (fun p => monomorphic (snd p)) l = true -> fine s ->
      data_fields chk_type f seen l s = Done (Some fs) s' -> step s s' /\ Forall (fun p => snd p < List.length (types s')) fs.
    Proof.
      induction l as [|[x e] l IH]; intros seen s fs s' M F H; cbn [data_fields] in H.
      - inv_ret H. injection H as ->. auto using step_refl.
      - cbn in M. apply andb_prop in M. destruct M as [M1 M]. inv_then H t s1 E1. destruct (type_ty _ _ _ _ M1 F E1) as [S1 L1].
        inv_bind H b s2 E2. apply name_space_ok in E2. subst s2. destruct (b && negb (repeated x seen))%bool; [|discriminate].
        inv_then H ts s3 E3. inv_ret H. injection H as ->. destruct (IH _ _ _ _ M (step_fine _ _ S1) E3) as [S3 L3].
        split; [eapply step_trans; eauto|]. constructor; auto. eapply step_lt; eauto.
    Qed.
  End parts.

  Lemma type_typed s t : fine s -> (exists u, get (types s) t = Some (TType u)) -> tyd s (t, CompileModel.TType).
  Proof.
    intros F (u & E). split; [eapply get_lt; eauto|]. cbn. rewrite top_typed_eq. cbn [typed]. eexists. split; [apply conv_refl|]. eapply type_here; eauto using fine_plain.
  Qed.

  Theorem check_typed : forall fuel,
    (forall e s p s', monomorphic e = true -> fine s -> check module fuel e s = Done (Some p) s' -> step s s' /\ tyd s' p) /\
    (forall e s t s', monomorphic e = true -> fine s -> check_type module fuel e s = Done (Some t) s' -> step s s' /\ t < List.length (types s')).
  Proof.
    induction fuel as [|f [IH IHt]]; [split; intros; discriminate|]. split.
    - intros e s p s' M F H.
      assert (Ty : and_then (check_type module f e) (fun t => bind (alloc (TType t)) (fun n => ret (Some (n, CompileModel.TType)))) s = Done (Some p) s' ->
                   step s s' /\ tyd s' p).
      { clear H. intros H. inv_then H t s1 E1. destruct (IHt _ _ _ _ M F E1) as [S1 L1]. pose proof (step_fine _ _ S1) as F1.
        inv_bind H n s2 E2. apply alloc_ok in E2; auto. destruct E2 as (S2 & L2 & G2 & _). inv_ret H. injection H as ->.
        split; [eapply step_trans; eauto|]. apply type_typed; [apply S2|eauto]. }
      destruct e as [e'|x|mp|bs body|u fields|o x|args|src args|type x arg|c choices d|arg rt|x type body|x k body|poly arg|g args|g w|pk|pk tg v|v|b m args];
        cbn [check] in H; cbn [monomorphic] in M; repeat match type of M with (_ && _)%bool = true => apply andb_prop in M; destruct M as [M ?M] end;
        auto; try discriminate.
      + (* EVar *) inv_then H v s1 E1. inv_ret H. injection H as ->. destruct (get_var_m_typed _ _ _ _ F E1) as (S1 & L1 & w & fr & r & Pl & Sc & V).
        split; auto. rewrite Pl. split; auto. cbn [fst snd]. rewrite Sc. cbn [top_typed typed]. exists (sv_type v). split; [apply var_at_vtype; auto|apply conv_refl].
      + (* EModulePath *) inv_bind H ov s1 E1. destruct ov as [v|]; [|discriminate].
        destruct (get_var_m_typed _ _ _ _ F E1) as (S1 & L1 & w & fr & r & Pl & Sc & V). rewrite Pl in H. inv_ret H. injection H as ->.
        split; auto. split; auto. cbn [fst snd]. rewrite Sc. cbn [top_typed typed]. exists (sv_type v). split; [apply var_at_vtype; auto|apply conv_refl].
      + (* ELet *) eapply check_let_ty; eauto.
      + (* EAccess *) inv_then H q s1 E1. destruct (IH _ _ _ _ M F E1) as [S1 T1]. pose proof (step_fine _ _ S1) as F1. pose proof (fine_plain _ F1) as Si.
        inv_bind H n s2 E2. apply normal_m_ok in E2; [|apply F1]. destruct E2 as [-> W]. inv_bind H d s3 E3. apply get_m_ok in E3. destruct E3 as [-> E3].
        destruct d as [u fields| | | | | | |]; try discriminate. destruct (find_field 0 x fields) as [[i t]|] eqn:Ef; [|discriminate].
        inv_ret H. injection H as ->. destruct (find_field_ok _ _ _ _ _ Ef) as (y & Ei & _). rewrite Nat.sub_0_r in Ei.
        split; auto. split; [eapply field_lt; eauto; apply F1|]. cbn [fst snd]. rewrite top_typed_eq. cbn [typed].
        destruct T1 as [_ T1]. rewrite top_typed_eq in T1. exists (fst q), fields, y, t. rewrite negb_involutive. split; auto.
        split; [eapply data_here; eauto|]. split; auto. apply conv_refl.
      + (* EStruct *) inv_bind H os s1 E1. destruct (somes os) as [xs|] eqn:Sx; [|discriminate].
        destruct (each_rev_ty _ IH _ _ _ _ _ M F E1 Sx) as [S1 T1]. pose proof (step_fine _ _ S1) as F1.
        inv_bind H b s2 E2. apply struct_fields_same in E2. subst s2. destruct b; [|discriminate].
        assert (Le : List.length (map fst args) = List.length (map fst xs)).
        { rewrite !map_length, (somes_len _ _ Sx). symmetry. eapply each_rev_len; eauto. }
        inv_bind H n s3 E3. apply alloc_ok in E3; auto.
        2:{ cbn. pose proof (tyd_lt _ _ T1) as Lx. rewrite <- (map_snd_combine _ _ Le) in Lx. clear - Lx.
            induction (combine (map fst args) (map fst xs)); auto. apply Forall_cons_iff in Lx. destruct Lx. constructor; auto. }
        destruct E3 as (S3 & L3 & G3 & _). inv_ret H. injection H as ->. split; [eapply step_trans; eauto|]. split; auto. pose proof (step_fine _ _ S3) as F3.
        cbn [fst snd]. rewrite top_typed_eq. cbn [typed]. eexists. eexists. split; [apply conv_refl|]. split; [eapply data_here; [apply fine_plain; auto| |exact G3]; eapply whnf_data; eauto|].
        rewrite map_snd_combine by auto. apply all2_map_snd. apply tyd_typed. exact (F_tyd_step _ _ _ F1 S3 T1).
      + (* ECopy *) inv_then H q s1 E1. destruct (IH _ _ _ _ M F E1) as [S1 T1]. pose proof (step_fine _ _ S1) as F1.
        inv_bind H n s2 E2. apply normal_m_ok in E2; [|apply F1]. destruct E2 as [-> W]. inv_bind H d s3 E3. apply get_m_ok in E3. destruct E3 as [-> E3].
        destruct d as [[|] fields| | | | | | |]; try discriminate. inv_bind H os s4 E4. inv_bind H r s5 E5. inv_ret H.
        destruct (somes os) as [xs|] eqn:Sx; [|discriminate]. destruct (fst r) eqn:Tr; [|discriminate]. injection H as ->.
        destruct (each_rev_ty _ IH _ _ _ _ _ M0 F1 E4 Sx) as [S4 T4]. pose proof (step_fine _ _ S4) as F4. pose proof (fine_plain _ F4) as Si.
        pose proof (tyd_step _ _ _ F1 S4 T1) as T14. assert (G4 : get (types s4) n = Some (TData false fields)) by (apply S4; auto).
        pose proof (fine_plain _ F1) as Si1.
        assert (Wn : whnf (types s4) n n) by (eapply whnf_data; eauto).
        assert (Cn : conv (types s4) (fst q) n). { eapply conv_grow; [exact Si1|apply pre_sle, S4|exact Si|]. apply conv_whnf; auto. }
        assert (Ln : n < List.length (types s4)) by (eapply get_lt; eauto).
        apply copy_fields_ty in E5; auto.
        2:{ eapply fields_lt; [apply F4|eauto]. }
        2:{ apply somes_map in Sx. subst os. clear - T4. revert args. induction T4; intros [|a args]; cbn; constructor; auto. }
        destruct E5 as [-> E5]. split; [eapply step_trans; eauto|]. destruct q as [qt qe]. cbn [fst snd] in *.
        pose proof (tyd_conv _ _ _ _ F4 T14 Ln Cn) as [_ T5]. split; auto. cbn [fst snd] in *. rewrite top_typed_eq in *. cbn [typed].
        eexists. exists fields. split; [apply conv_refl|]. split; [eapply data_here; eauto|]. split; auto. specialize (E5 Tr). apply all2_F2. apply all2_F2 in E5. 
        eapply Forall2_impl; [|exact E5]. intros [e|] u; auto. rewrite top_typed_eq. auto.
      + (* EUnion *) inv_then H t s1 E1. destruct (IHt _ _ _ _ M F E1) as [S1 L1]. pose proof (step_fine _ _ S1) as F1.
        inv_bind H q s2 E2. apply depoly_ok in E2; auto. destruct E2 as (-> & Eq & W). inv_bind H d s3 E3. apply get_m_ok in E3. destruct E3 as [-> E3].
        destruct d as [[|] fields| | | | | | |]; try discriminate. destruct (find_field 0 x fields) as [[i ft]|] eqn:Ef; [|discriminate].
        destruct (find_field_ok _ _ _ _ _ Ef) as (y & Ei & _). rewrite Nat.sub_0_r in Ei.
        inv_then H a s4 E4. destruct (IH _ _ _ _ M0 F1 E4) as [S4 T4]. pose proof (step_fine _ _ S4) as F4. pose proof (fine_plain _ F4) as Si.
        assert (Lf : ft < List.length (types s4)). { eapply step_lt; eauto. eapply field_lt; eauto. apply F1. }
        rewrite Eq in H. inv_then H q' s5 E5. apply infer_args_same in E5; auto; [|constructor; [apply T4|constructor]].
        destruct E5 as (-> & -> & C). inversion C as [|? ? ? ? C1 _]; subst. inv_ret H. injection H as ->.
        split; [eapply step_trans; eauto|]. split; [eapply step_lt; eauto|]. cbn [fst snd]. rewrite top_typed_eq. cbn [typed].
        eexists. exists fields, y, ft. split; [apply conv_refl|]. split. { eapply data_grow; [apply (fine_plain _ F1)|apply pre_sle, S4|]. eapply data_here; eauto using fine_plain. }
        split; auto. destruct T4 as [_ T4]. rewrite top_typed_eq in T4. eapply typed_conv; eauto. apply conv_sym; auto.
      + (* ESelect *) eapply check_select_ty; eauto.
      + (* EFunc *) inv_then H t s1 E1. destruct (IHt _ _ _ _ M F E1) as [S1 L1]. pose proof (step_fine _ _ S1) as F1.
        inv_bind H u s2 E2. unfold push_frame in E2. injection E2 as _ <-. inv_bind H r s3 E3. inv_bind H fr s4 E4.
        destruct r as [[rt b]|]; [|discriminate]. destruct (f_captured fr) as [cs|] eqn:Ec; [|discriminate].
        assert (F2 : fine (MkState (types s1) (new_frame (Some []) [(Plain x, t)] :: scopes s1))) by (apply push_fine; auto).
        destruct (IH _ _ _ _ M0 F2 E3) as [S3 [L3 T3]]. cbn [fst snd] in L3, T3. unfold pop_frame in E4. destruct (scopes s3) as [|fr3 sc] eqn:Sc; [discriminate|].
        injection E4 as <- <-. destruct (pop_step _ _ _ _ _ F1 S3 Sc) as [S4 X4]. set (s4 := MkState (types s3) sc) in *. pose proof (step_fine _ _ S4) as F4.
        pose proof (fi_ok _ (step_fine _ _ S3)) as OK. rewrite Sc in OK. destruct OK as (_ & Cap & _).
        inv_bind H n s5 E5. apply alloc_ok in E5; auto; [|cbn; split; auto; eapply step_lt; eauto]. destruct E5 as (S5 & L5 & G5 & Sc5).
        inv_ret H. injection H as ->. split; [eapply step_trans; [|exact S5]; eapply step_trans; eauto|]. split; auto.
        pose proof (step_fine _ _ S5) as F5. pose proof (fine_plain _ F5) as Si5.
        cbn [fst snd]. rewrite top_typed_eq. cbn [typed]. eexists. exists t, rt, (map sv_type (f_statics fr3)). split; [apply conv_refl|].
        split; [eapply func_here; [auto| |exact G5]; eapply whnf_func; eauto|]. split.
        * rewrite Sc5. cbn [scopes s4]. unfold captured_ok in Cap. destruct sc as [|p sc].
          -- destruct Cap as [Es Cs]. rewrite Ec in Cs. subst cs. rewrite Es. constructor.
          -- rewrite Ec in Cap. clear - Cap. induction Cap; cbn; constructor; auto. apply var_at_vtype; auto.
        * cbn [top_typed] in T3. destruct X4 as [_ X2 (lx & y & X3 & X3') _ _]. cbn in X2, X3'.
          assert (Ea : map sv_type (f_args fr3) = [t]). { rewrite (vle_types _ _ X2). reflexivity. }
          assert (El : ltypes fr3 = []).
          { pose proof (fi_vars _ F4) as _. unfold ltypes. destruct S3 as (_ & _ & X). rewrite Sc in X. cbn in X. inversion X as [|? ? ? ? Y _]; subst.
            destruct Y as [Y1 _ _ _ _]. cbn in Y1. inversion Y1. reflexivity. }
          rewrite Ea, El in T3. eapply typed_grow; [apply fine_plain; exact F4|apply pre_sle, S5|exact Si5|exact T3].
      + (* EPolyApply *) inv_bind H op s1 E1. inv_bind H oa s2 E2. destruct op as [q|]; [|discriminate]. destruct oa as [a|]; [|discriminate].
        destruct (IH _ _ _ _ M F E1) as [S1 T1]. pose proof (step_fine _ _ S1) as F1.
        destruct (for_type_ty _ IH _ _ _ _ M0 F1 E2) as [S2 L2]. pose proof (step_fine _ _ S2) as F2.
        apply poly_apply_typed in H; auto; [|eapply step_lt; eauto; apply T1]. destruct H as [S3 T3]. split; auto.
        eapply step_trans; eauto. eapply step_trans; eauto.
      + (* EList *) inv_then H q s1 E1. destruct (IH _ _ _ _ M F E1) as [S1 T1]. pose proof (step_fine _ _ S1) as F1.
        inv_bind H p0 s2 E2. apply depoly_ok in E2; auto. destruct E2 as (-> & Eq & W). inv_bind H d s3 E3. apply get_m_ok in E3. destruct E3 as [-> E3].
        destruct d as [|x r| | | | | |]; try discriminate. destruct (func_lt _ _ _ _ (fi_flat _ F1) E3) as [Lx Lr].
        inv_then H el s4 E4. apply list_element_ok in E4; auto. destruct E4 as (-> & Le & IsL).
        inv_bind H os s5 E5. destruct (somes os) as [xs|] eqn:Sx; [|discriminate].
        destruct (each_ty _ IH _ _ _ _ _ M0 F1 E5 Sx) as [S5 T5]. pose proof (step_fine _ _ S5) as F5. pose proof (fine_plain _ F5) as Si.
        rewrite Eq in H. inv_then H q' s6 E6. apply infer_args_same in E6; auto.
        2:{ clear - Le S5. eapply step_lt in Le; eauto. induction xs; cbn; auto. }
        2:{ apply tyd_lt; auto. }
        destruct E6 as (-> & -> & C). pose proof (fine_plain _ F1) as Si1.
        assert (Fq : is_func (types s5) x r (fst q)). { eapply func_grow; [exact Si1|apply pre_sle, S5|]. eapply func_here; eauto. }
        inv_bind H n s7 E7. apply normal_m_ok in E7; [|apply F5]. destruct E7 as [-> W7]. inv_bind H ft s8 E8. apply get_m_ok in E8. destruct E8 as [-> E8].
        destruct ft as [|x' r'| | | | | |]; try discriminate. inv_ret H. injection H as ->.
        destruct (func_det _ _ _ _ _ _ Fq (func_here _ _ _ _ _ Si W7 E8)) as [<- <-].
        split; [eapply step_trans; eauto|]. split; [eapply step_lt; eauto|]. cbn [fst snd]. rewrite top_typed_eq. cbn [typed].
        exists (fst q), x, r. pose proof (tyd_step _ _ _ F1 S5 T1) as [_ Tq]. rewrite top_typed_eq in Tq. split; auto. split; auto. split; [|apply conv_refl].
        eexists. exists el. split; [apply conv_refl|]. split; [eapply list_grow; [exact Si1|apply pre_sle, S5|exact Si|auto]|]. apply all_F. apply tyd_typed in T5. clear - T5 C Si.
        induction T5 as [|[t0 e0] xs T T5 IH]; cbn in *; auto. inversion C; subst. constructor; auto. eapply typed_conv; eauto. apply conv_sym; auto.
      + (* ELiteral *) inv_then H q s1 E1. destruct (IH _ _ _ _ M F E1) as [S1 T1]. pose proof (step_fine _ _ S1) as F1.
        inv_bind H n s2 E2. apply normal_m_ok in E2; [|apply F1]. destruct E2 as [-> W]. inv_bind H d s3 E3. apply get_m_ok in E3. destruct E3 as [-> E3].
        destruct d as [|x r| | | | | |]; try discriminate. destruct (func_lt _ _ _ _ (fi_flat _ F1) E3) as [Lx Lr].
        inv_then H el s4 E4. apply list_element_ok in E4; auto. destruct E4 as (-> & Le & IsL).
        inv_bind H en s5 E5. apply normal_m_ok in E5; [|apply F1]. destruct E5 as [-> W5]. inv_bind H ed s6 E6. apply get_m_ok in E6. destruct E6 as [-> E6].
        destruct ed as [[|] fields| | | | | | |]; try discriminate.
        inv_bind H un s7 E7. apply alloc_ok in E7; auto; [|cbn; auto]. destruct E7 as (S7 & L7 & G7 & _). pose proof (step_fine _ _ S7) as F7.
        pose proof (fine_plain _ F1) as Si1. pose proof (fine_plain _ F7) as Si7.
        inv_then H ls s8 E8. apply letters_ok in E8; auto.
        2:{ eapply data_here; [auto| |exact G7]. eapply whnf_data; eauto. }
        2:{ pose proof (fl_node _ (fi_flat _ F1) _ _ E6) as Nf. cbn in Nf. eapply Forall_impl; [|exact Nf]. cbn. intros p0 Hp. eapply step_lt; eauto. }
        destruct E8 as [-> E8]. inv_ret H. injection H as ->.
        split; [eapply step_trans; eauto|]. split; [eapply step_lt; eauto|]. cbn [fst snd]. rewrite top_typed_eq. cbn [typed].
        exists (fst q), x, r. pose proof (tyd_step _ _ _ F1 S7 T1) as [_ Tq]. rewrite top_typed_eq in Tq. split; auto.
        split; [eapply func_grow; [exact Si1|apply pre_sle, S7|]; eapply func_here; eauto|]. split; [|apply conv_refl].
        eexists. exists el, fields. split; [apply conv_refl|]. split; [eapply list_grow; [exact Si1|apply pre_sle, S7|exact Si7|auto]|]. split; auto.
        eapply data_grow; [exact Si1|apply pre_sle, S7|]. eapply data_here; eauto.
      + (* ECast *) inv_then H pt s1 E1. destruct (IHt _ _ _ _ M F E1) as [S1 L1]. pose proof (step_fine _ _ S1) as F1.
        inv_bind H n s2 E2. apply normal_m_ok in E2; [|apply F1]. destruct E2 as [-> W]. inv_bind H d s3 E3. apply get_m_ok in E3. destruct E3 as [-> E3].
        destruct d as [| | | |path opaque| | |]; try discriminate.
        inv_then H t s4 E4. destruct (IHt _ _ _ _ M1 F1 E4) as [S4 L4]. pose proof (step_fine _ _ S4) as F4.
        inv_then H q s5 E5. destruct (IH _ _ _ _ M0 F4 E5) as [S5 T5]. pose proof (step_fine _ _ S5) as F5.
        destruct (belongs module path); [|discriminate]. destruct opaque; [|discriminate].
        assert (G5 : get (types s5) n = Some (TPackage path true)) by (apply S5, S4; auto).
        inv_bind H st s6 E6. unfold read in E6. injection E6 as <- <-. inv_bind H z s7 E7. destruct z.
        inv_bind H b s8 E8. inv_bind H st' s9 E9. unfold read in E9. injection E9 as <- <-. inv_bind H z s9 E9. inv_ret H.
        destruct b; [|discriminate]. injection H as ->.
        eapply cast_ok in E8; [| | | | |exact E7]; eauto; [|eapply step_lt; eauto|apply T5]. destruct E8 as [E8 C].
        unfold set_types in E9. rewrite E8 in E9. injection E9 as _ <-.
        split; [eapply step_trans; [exact S1|]; eapply step_trans; eauto|]. destruct q as [qt qe]. cbn [fst snd] in *.
        eapply tyd_conv; eauto; [eapply step_lt; eauto|]. apply conv_sym; auto.
      + (* EAbsAccess *) inv_then H q s1 E1. destruct (IH _ _ _ _ M F E1) as [S1 T1]. pose proof (step_fine _ _ S1) as F1.
        inv_bind H n s2 E2. apply normal_m_ok in E2; [|apply F1]. destruct E2 as [-> W]. inv_bind H d s3 E3. apply get_m_ok in E3. destruct E3 as [-> E3].
        destruct d as [| | | | |pk t| |]; try discriminate. inv_bind H pd s4 E4. apply get_m_ok in E4. destruct E4 as [-> E4].
        destruct pd; try discriminate. destruct (belongs module path); [|discriminate]. inv_ret H. injection H as ->. split; auto.
        destruct q as [qt qe]. cbn [fst snd] in *. eapply tyd_conv; eauto; [|eapply conv_abs; eauto]. apply (fl_node _ (fi_flat _ F1) _ _ E3).
      + (* EApply *) eapply check_apply_ty; eauto.
    - intros e s t s' M F H.
      assert (Gen : and_then (for_type (check module f) e) value_of s = Done (Some t) s' -> step s s' /\ t < List.length (types s')).
      { clear H. intros H. inv_then H u s1 E1. destruct (for_type_ty _ IH _ _ _ _ M F E1) as [S1 L1]. unfold value_of, read in H. injection H as H <-.
        split; auto. unfold value_of_type in H. destruct (get (types s1) u) as [d|] eqn:E; [|discriminate]. destruct d; try discriminate. injection H as <-.
        apply (fl_node _ (fi_flat _ (step_fine _ _ S1)) _ _ E). }
      destruct e as [e'|x|mp|bs body|u fields|o x|args|src args|type x arg|c choices d|arg rt|x type body|x k body|poly arg|g args|g w|pk|pk tg v|v|b m args];
        cbn [check_type] in H; auto; cbn [monomorphic] in M.
      + eapply for_type_ty; eauto.
      + inv_then H fs s1 E1. destruct (data_fields_ty _ _ IHt _ _ _ _ _ M F E1) as [S1 L1]. pose proof (step_fine _ _ S1) as F1.
        inv_bind H n s2 E2. apply alloc_ok in E2; auto. destruct E2 as (S2 & L2 & _). inv_ret H. injection H as ->. split; auto. eapply step_trans; eauto.
      + apply andb_prop in M. destruct M as [M M0]. inv_bind H oa s1 E1. inv_bind H or_ s2 E2. destruct oa as [a|]; [|discriminate]. destruct or_ as [r|]; [|discriminate].
        destruct (IHt _ _ _ _ M F E1) as [S1 L1]. pose proof (step_fine _ _ S1) as F1. destruct (IHt _ _ _ _ M0 F1 E2) as [S2 L2]. pose proof (step_fine _ _ S2) as F2.
        inv_bind H n s3 E3. apply alloc_ok in E3; auto; [|cbn; split; auto; eapply step_lt; eauto]. destruct E3 as (S3 & L3 & _). inv_ret H. injection H as ->. split; auto.
        eapply step_trans; [|exact S3]. eapply step_trans; eauto.
      + inv_bind H n s3 E3. apply alloc_ok in E3; [|auto|reflexivity]. destruct E3 as (S3 & L3 & _). inv_ret H. injection H as ->. auto.
  Qed.
End check.
