(** * What the type checker accepts is well typed: proofs for CheckProps.v. *)
From Coq Require Import String List Arith Bool ZArith Lia.
From Verif Require CodeModel CompileModel CompileStatic.
From Verif Require Import KindModel UnusedModel TypeModel TypeSpec TypeProps CheckModel CheckScope CheckScoped CheckTyping CheckSafe CheckGrow
  CheckOps CheckLet CheckSafeSpec.
Import ListNotations.
Local Open Scope list_scope.
Local Notation tc := CompileModel.tc.
Local Notation binding := (vname * (kind + expr) * expr)%type.

Ltac inv_bind H x s E := apply bind_inv in H; destruct H as (x & s & E & H).
Ltac inv_then H x s E := apply and_then_inv in H; destruct H as [[_ H]|(x & s & E & H)]; [discriminate|].
Ltac inv_ret H := apply ret_inv in H; destruct H as [H ->].

Definition mono_binding (b : binding) : bool :=
  match b with ((_, kt), v) => (match kt with inl _ => true | inr t => monomorphic t end && monomorphic v)%bool end.

Fixpoint def_ok (st : store) (bs : list binding) (ts : list nat) (ds : list (nat * tc)) : Prop :=
  match bs, ts, ds with
  | [], [], [] => True
  | ((_, kt), _) :: bs', t :: ts', d :: ds' => match kt with inr _ => conv st t (fst d) | inl _ => True end /\ def_ok st bs' ts' ds'
  | _, _, _ => False
  end.

Lemma F_tyd_step s s' l : fine s -> step s s' -> Forall (tyd s) l -> Forall (tyd s') l.
Proof. intros F S. apply Forall_impl. intros p. apply tyd_step; auto. Qed.
Lemma F_lt_step s s' l : step s s' -> Forall (fun t => t < List.length (types s)) l -> Forall (fun t => t < List.length (types s')) l.
Proof. intros S. apply Forall_impl. intros t. apply step_lt; auto. Qed.
Lemma def_ok_step s s' : fine s -> step s s' -> forall bs ts ds, def_ok (types s) bs ts ds -> def_ok (types s') bs ts ds.
Proof.
  intros F S. induction bs as [|[[x kt] e] bs IH]; intros [|t ts] [|d ds] H; cbn in *; auto. destruct H as [H1 H2]. split; auto.
  destruct kt; auto. eapply conv_grow; [| | |exact H1]; auto using fine_plain; [apply pre_sle, S|apply fine_plain, S].
Qed.

Lemma somes_F {A} (P : A -> Prop) : forall os xs, somes os = Some xs -> Forall (fun o => match o with Some x => P x | None => True end) os -> Forall P xs.
Proof.
  induction os as [|[x|] os IH]; intros xs H F; cbn in H; try discriminate; [injection H as <-; auto|].
  destruct (somes os) as [ys|]; [|discriminate]. injection H as <-. apply Forall_cons_iff in F. destruct F. constructor; auto.
Qed.

Section check.
  Variable module : list string.
  Section parts.
    Variable chk : expr -> M (option (nat * tc)).
    Variable chk_type : expr -> M (option nat).
    Variable f : nat.
    Hypothesis chk_ty : forall e s p s', monomorphic e = true -> fine s -> chk e s = Done (Some p) s' -> step s s' /\ tyd s' p.
    Hypothesis type_ty : forall e s t s', monomorphic e = true -> fine s -> chk_type e s = Done (Some t) s' ->
      step s s' /\ t < List.length (types s').

    Lemma each_ty : forall args s os s' xs, forallb monomorphic args = true -> fine s -> each chk args s = Done os s' -> somes os = Some xs ->
      step s s' /\ Forall (tyd s') xs.
    Proof.
      induction args as [|a args IH]; intros s os s' xs M F H So; cbn [each] in H.
      - inv_ret H. subst. cbn in So. injection So as <-. split; auto using step_refl.
      - cbn in M. apply andb_prop in M. destruct M as [M1 M2].
        inv_bind H o s1 E1. inv_bind H os' s2 E2. inv_ret H. subst. cbn in So. destruct o as [p|]; [|discriminate].
        destruct (somes os') as [ys|] eqn:Sy; [|discriminate]. injection So as <-.
        destruct (chk_ty _ _ _ _ M1 F E1) as [S1 T1]. pose proof (step_fine _ _ S1) as F1.
        destruct (IH _ _ _ _ M2 F1 E2 Sy) as [S2 T2]. split; [eapply step_trans; eauto|]. constructor; auto. eapply tyd_step; eauto.
    Qed.
    Lemma each_rev_ty : forall (args : list (vname * expr)) s os s' xs, forallb (fun p => monomorphic (snd p)) args = true -> fine s ->
      each_rev (fun p => chk (snd p)) args s = Done os s' -> somes os = Some xs -> step s s' /\ Forall (tyd s') xs.
    Proof.
      induction args as [|a args IH]; intros s os s' xs M F H So; cbn [each_rev] in H.
      - inv_ret H. subst. cbn in So. injection So as <-. split; auto using step_refl.
      - cbn in M. apply andb_prop in M. destruct M as [M1 M2].
        inv_bind H os' s1 E1. inv_bind H o s2 E2. inv_ret H. subst. cbn in So. destruct o as [p|]; [|discriminate].
        destruct (somes os') as [ys|] eqn:Sy; [|discriminate]. injection So as <-.
        destruct (IH _ _ _ _ M2 F E1 Sy) as [S1 T1]. pose proof (step_fine _ _ S1) as F1.
        destruct (chk_ty _ _ _ _ M1 F1 E2) as [S2 T2]. split; [eapply step_trans; eauto|]. constructor; auto. eapply F_tyd_step; eauto.
    Qed.

    Lemma for_type_ty e s t s' : monomorphic e = true -> fine s -> for_type chk e s = Done (Some t) s' ->
      step s s' /\ t < List.length (types s').
    Proof.
      intros M F H. unfold for_type in H. inv_bind H u s1 E1. unfold push_frame in E1. injection E1 as _ <-.
      inv_bind H o s2 E2. inv_bind H fr s3 E3. inv_ret H. destruct o as [p|]; [|discriminate]. injection H as ->.
      assert (F1 : fine (MkState (types s) (new_frame None [] :: scopes s))) by (apply push_fine; auto).
      destruct (chk_ty _ _ _ _ M F1 E2) as [S2 [L2 _]]. unfold pop_frame in E3. destruct (scopes s2) as [|fr2 sc] eqn:Sc; [discriminate|].
      injection E3 as <- <-. destruct (pop_step _ _ _ _ _ F S2 Sc) as [S3 _]. auto.
    Qed.

    (** *** Let *)
    Lemma let_types_ty : forall bs seen s p s', forallb mono_binding bs = true -> fine s -> let_types chk_type f seen bs s = Done p s' ->
      fst p = true -> step s s' /\ lt_ok (types s') (List.length (types s)) bs (snd p) /\ Forall (fun t => t < List.length (types s')) (snd p).
    Proof.
      induction bs as [|[[x kt] e] bs IH]; intros seen s p s' M F H T; cbn [let_types] in H.
      - inv_ret H. subst. cbn. auto using step_refl, lt_nil.
      - cbn [forallb mono_binding] in M. apply andb_prop in M. destruct M as [M0 M]. apply andb_prop in M0. destruct M0 as [M0 _].
        inv_bind H o s1 E1. inv_bind H b s2 E2. inv_bind H q s3 E3. inv_ret H. subst. cbn in T.
        apply andb_prop in T. destruct T as [T1 T2]. apply andb_prop in T1. destruct T1 as [T1 _]. subst b.
        destruct o as [t|]; [|inv_ret E2; discriminate]. apply name_space_ok in E2. subst s2. cbn [snd].
        destruct kt as [k|ty].
        + inv_bind E1 n s4 E4. inv_ret E1. injection E1 as ->. apply new_var_ok in E4; auto. destruct E4 as (S1 & L1 & v & C & Lv & Ev).
          pose proof (step_fine _ _ S1) as F1. destruct (IH _ _ _ _ M F1 E3 T2) as (S3 & A & B).
          split; [eapply step_trans; eauto|]. split.
          * apply lt_inl with v.
            -- eapply tchain_pre; [apply S3|auto].
            -- destruct Ev as (k' & y & Ev). exists k', y. apply S3. auto.
            -- auto.
            -- eapply lt_ok_lo; [|exact A]. destruct Ev as (k' & y & Ev). apply get_lt in Ev. auto.
          * constructor; auto. eapply step_lt; eauto.
        + destruct (type_ty _ _ _ _ M0 F E1) as [S1 L1]. pose proof (step_fine _ _ S1) as F1. destruct (IH _ _ _ _ M F1 E3 T2) as (S3 & A & B).
          split; [eapply step_trans; eauto|]. split.
          * constructor. eapply lt_ok_lo; [|exact A]. apply pre_lt, S1.
          * constructor; auto. eapply step_lt; eauto.
    Qed.
    Lemma let_defs_ty : forall bs ts s ds s', forallb mono_binding bs = true -> fine s -> Forall (fun t => t < List.length (types s)) ts ->
      List.length ts = List.length bs -> let_defs chk f bs ts s = Done (Some ds) s' ->
      step s s' /\ Forall (tyd s') ds /\ def_ok (types s') bs ts ds.
    Proof.
      induction bs as [|[[x kt] e] bs IH]; intros [|t ts] s ds s' M F Lt Le H; cbn [let_defs] in H; try discriminate.
      - inv_ret H. injection H as ->. cbn. auto using step_refl.
      - cbn [forallb mono_binding] in M. apply andb_prop in M. destruct M as [M0 M]. apply andb_prop in M0. destruct M0 as [_ M0].
        apply Forall_cons_iff in Lt. destruct Lt as [Lt1 Lt]. injection Le as Le.
        inv_then H d s1 E1. destruct (chk_ty _ _ _ _ M0 F E1) as [S1 T1]. pose proof (step_fine _ _ S1) as F1.
        inv_bind H b s2 E2. assert (Q : s2 = s1 /\ (b = true -> match kt with inr _ => conv (types s1) t (fst d) | inl _ => True end)).
        { destruct kt as [k|ty].
          - inv_bind E2 k' s3 E3. inv_ret E2. apply kind_m_ok in E3; [|apply F1]. destruct E3. auto.
          - apply equal_m_ok in E2; auto; [eapply step_lt; eauto|apply T1]. }
        destruct Q as [-> Q]. destruct b; [|discriminate]. specialize (Q eq_refl).
        inv_then H ds' s3 E3. inv_ret H. injection H as ->. destruct (IH _ _ _ _ M F1 (F_lt_step _ _ _ S1 Lt) Le E3) as (S3 & A & B).
        split; [eapply step_trans; eauto|]. split; [constructor; auto; eapply tyd_step; eauto|]. cbn. split; auto.
        destruct kt; auto. eapply conv_grow; [| | |exact Q]; auto using fine_plain; [apply pre_sle, S3|apply fine_plain, S3].
    Qed.

    Lemma ltypes_app st sts as_ l m k c : Forall (fun v => is_value v = true) m ->
      ltypes (MkFrame sts as_ (l ++ m) k c) = ltypes (MkFrame sts as_ l k c) ++ map (fun v => if sv_used v then Some (sv_type v) else None) m /\
      (forall n2, Forall2 vle m n2 -> Forall2 (lconv st) (map (fun v => if sv_used v then Some (sv_type v) else None) m)
         (map Some (map sv_type m))).
    Proof.
      intros V. assert (values m = m) as E. { clear - V. induction V as [|v l H V IH]; cbn; auto. rewrite H. f_equal. auto. }
      split.
      - unfold ltypes. cbn [f_locals]. rewrite values_app, E, map_app. reflexivity.
      - intros n2 _. clear. induction m as [|v m IH]; cbn; constructor; auto. destruct (sv_used v); cbn; eauto using conv_refl.
    Qed.

    Lemma check_let_ty bs body s p s' : forallb mono_binding bs = true -> monomorphic body = true -> fine s ->
      check_let chk chk_type f bs body s = Done (Some p) s' -> step s s' /\ tyd s' p.
    Proof.
      intros M Mb F H. unfold check_let in H. inv_bind H q s1 E1. destruct (fst q) eqn:Tq; [|discriminate].
      pose proof (let_types_len _ _ _ _ _ _ _ E1 Tq) as Lq.
      destruct (let_types_ty _ _ _ _ _ M F E1 Tq) as (S1 & LT & LL). pose proof (step_fine _ _ S1) as F1.
      inv_bind H u s2 E2. destruct u. inv_bind H o s3 E3.
      destruct (scopes s1) as [|fr r] eqn:Sc1.
      { exfalso. destruct bs as [|b bs].
        - cbn in E2. injection E2 as <-. destruct (snd q); [|discriminate]. cbn in E3. injection E3 as <- <-.
          inv_bind H vs s4 E4. unfold top_locals in E4. rewrite Sc1 in E4. discriminate.
        - destruct (snd q) as [|t ts]; [discriminate|]. cbn [map combine push_locals] in E2. inv_bind E2 u s4 E4.
          unfold push_local, on_frame in E4. rewrite Sc1 in E4. discriminate. }
      destruct (push_locals_spec _ _ _ _ _ Sc1 E2) as (new & Sc2 & Ty2 & Hn & Ht & Hu & Hp).
      set (n := List.length bs) in *.
      assert (Ln : List.length (combine (map (fun b : vname * (kind + expr) * expr => fst (fst b)) bs) (snd q)) = n).
      { rewrite combine_length, map_length, Lq. unfold n. lia. }
      assert (Lnew : List.length new = n). { rewrite <- (map_length sv_name), Hn, map_length. auto. }
      assert (Htn : map sv_type new = snd q).
      { rewrite Ht. clear - Lq. revert Lq. unfold n. generalize (snd q) as ts. induction bs as [|b bs IH]; intros [|t ts] Lq; cbn in *; auto; try discriminate.
        f_equal. auto. }
      rewrite Ln in Sc2. pose proof (fi_ok _ F1) as O1. rewrite Sc1 in O1. destruct O1 as (Fr1 & C1 & O1).
      destruct (let_frames fr r new n (scopes s3) Fr1 C1 O1 Hp Lnew) as [OK2 K]. rewrite <- Sc2 in OK2.
      assert (Vnew : Forall (fun v => is_value v = true /\ sv_type v < List.length (types s1)) new).
      { pose proof (placed_is_value _ _ _ Hp) as V. rewrite <- Htn in LL. clear - V LL. induction new; auto. cbn in LL.
        apply Forall_cons_iff in V, LL. destruct V, LL. constructor; auto. }
      assert (F2 : fine s2).
      { split; [rewrite Ty2; apply F1|rewrite Ty2; apply F1|auto|]. rewrite Sc2, Ty2. pose proof (fi_vars _ F1) as V. rewrite Sc1 in V.
        apply Forall_cons_iff in V. destruct V as [V1 V2]. constructor; auto. unfold frame_vars in *. cbn. rewrite !Forall_app in *. tauto. }
      destruct o as [ds|]; [|inv_bind H u s4 E4; discriminate].
      rewrite <- Ty2 in LL.
      destruct (let_defs_ty _ _ _ _ _ M F2 LL Lq E3) as (S3 & T3 & D3). pose proof (step_fine _ _ S3) as F3.
      pose proof (proj2 (proj2 S3)) as X3. rewrite Sc2 in X3.
      destruct (K X3 (fi_ok _ F3)) as (fr3 & r3 & l3 & n3 & Sc3 & El3 & V3 & V3' & Al3 & Iv3 & Pl3 & OKp & Sp & Fl3). clear K.
      assert (Ln3 : List.length n3 = n). { rewrite <- Lnew. symmetry. eapply F2_length; eauto. }
      assert (Ht3 : map sv_type n3 = snd q) by (rewrite (vle_types _ _ V3'); auto).
      pose proof (let_defs_len _ _ _ _ _ _ _ E3 Lq) as Lds.
      inv_bind H vs s4 E4. destruct (top_locals_spec _ _ _ _ _ _ _ _ Sc3 El3 Ln3 E4) as [-> ->]. clear E4.
      inv_bind H ts s4 E4. pose proof (let_assign_len _ _ _ _ _ _ _ E4 Lq Lds) as Lts.
      assert (LT3 : lt_ok (types s3) (List.length (types s)) bs (snd q)).
      { eapply lt_ok_pre; [apply S3|]. rewrite Ty2. auto. }
      assert (LD3 : Forall (fun d => fst d < List.length (types s3)) ds).
      { eapply Forall_impl; [|exact T3]. intros d Hd. apply Hd. }
      destruct (let_assign_ok f bs (snd q) ds s3 ts s4 (List.length (types s)) (fi_flat _ F3) LT3 LD3 Lds E4)
        as (vs & A1 & A2 & A3 & A4 & A5 & A6 & A7).
      rewrite Sc3 in A4. clear E4.
      inv_bind H u s5 E5. destruct u.
      assert (Lt3 : List.length ts = List.length n3) by lia.
      destruct (set_top_types_spec _ _ _ _ _ l3 n3 A4 El3 Lt3 E5) as [Sc5 Ty5]. clear E5.
      inv_bind H vac s6 E6. rewrite <- Ty5 in A2. destruct (vacuous_each f _ _ _ _ A2 E6) as [-> Vac]. rewrite Ty5 in *.
      inv_bind H ob s7 E7. destruct (existsb (fun b => b) vac); [inv_ret E7; subst ob; inv_bind H u s8 E8; discriminate|].
      specialize (Vac eq_refl).
      pose proof (fine_plain _ F3) as Si3.
      assert (G4 : grounded (types s4)) by (eapply asg_grounded; eauto).
      assert (Si4 : plain (types s4)) by (apply flat_plain; auto).
      assert (P4 : pre (types s) (types s4)).
      { intros m t Em. assert (Lm : m < List.length (types s)) by (eapply get_lt; eauto).
        destruct (A7 m) as [E|Hm]. { rewrite E. apply S3. rewrite Ty2. apply S1. auto. }
        rewrite Forall_forall in A6. apply A6 in Hm. lia. }
      assert (LL4 : Forall (fun t => t < List.length (types s4)) (snd q)).
      { rewrite A5. eapply F_lt_step; eauto. }
      assert (LD4 : Forall (fun d => fst d < List.length (types s4)) ds).
      { rewrite A5. eapply Forall_impl; [|exact T3]. intros d Hd. apply Hd. }
      destruct (asg_conv _ _ _ _ _ _ Si4 A1 LL4 LD4) as (Cr & Lr & Cd).
      assert (CD : Forall2 (fun t d => conv (types s4) t (fst d)) (snd q) ds).
      { clear - D3 Cd Si3 Si4 A3 Lq Lds. unfold n in *. revert D3 Cd Lq Lds. generalize (snd q) as ts. revert ds.
        induction bs as [|[[x kt] e] bs IH]; intros [|d ds] [|t ts] D3 Cd Lq Lds; cbn in *; try discriminate; auto.
        inversion Cd; subst. destruct D3 as [D3 D3']. constructor; [|apply IH; auto]. destruct kt as [k|ty]; [auto|].
        eapply conv_grow; [exact Si3|exact A3|exact Si4|exact D3]. }
      destruct (set_types_of_spec n3 ts) as (N1 & N2 & N3 & N4); [lia|].
      set (fr' := MkFrame (f_statics fr3) (f_args fr3) l3 (f_allocated fr) (f_captured fr3)) in *.
      destruct OKp as (OKp1 & OKp2 & OKp3).
      destruct (let_frames fr' r3 (set_types_of n3 ts) n (scopes s7)) as [OK6 K]; auto.
      { eapply placed_places; eauto. }
      { rewrite <- (map_length sv_name), N1, map_length. auto. }
      cbn [f_statics f_args f_locals f_allocated f_captured fr'] in OK6, K. rewrite Al3 in Sc5. rewrite <- Sc5 in OK6.
      pose proof (fi_vars _ F3) as V. rewrite Sc3 in V. apply Forall_cons_iff in V. destruct V as [V1 V2].
      unfold frame_vars in V1. rewrite El3, !Forall_app in V1.
      assert (F5 : fine s5).
      { split; [rewrite Ty5; auto|rewrite Ty5; auto|auto|]. rewrite Sc5, Ty5, A5.
        constructor; auto. unfold frame_vars in *. cbn [f_statics f_args f_locals]. rewrite !Forall_app in *.
        split; [tauto|]. split; [tauto|]. split; [tauto|]. rewrite A5 in Lr. rewrite <- N2 in Lr.
        assert (Iv5 : Forall (fun v => is_value v = true) (set_types_of n3 ts)).
        { eapply placed_is_value. eapply placed_places; eauto. }
        clear - Lr Iv5. induction (set_types_of n3 ts); auto. cbn in Lr. apply Forall_cons_iff in Lr, Iv5. destruct Lr, Iv5. constructor; auto. }
      destruct ob as [[t b]|]; [|inv_bind H u s8 E8; discriminate].
      destruct (chk_ty _ _ _ _ Mb F5 E7) as [S7 [L7 T7]]. pose proof (step_fine _ _ S7) as F7.
      pose proof (proj2 (proj2 S7)) as X7. rewrite Sc5 in X7.
      destruct (K X7 (fi_ok _ F7)) as (fr7 & r7 & l7 & n7 & Sc7 & El7 & V7 & V7' & Al7 & Iv7 & Pl7 & OK7 & Sp7 & Fl7). clear K.
      assert (Ln7 : List.length n7 = n). { rewrite <- (F2_length _ _ _ V7'). rewrite <- (map_length sv_name), N1, map_length. auto. }
      inv_bind H u s8 E8. destruct u.
      destruct (pop_locals_spec _ _ _ _ _ l7 n7 (f_allocated fr) Sc7 El7 Ln7 Iv7 Al7 E8) as [Sc8 Ty8].
      cbn [f_allocated fr'] in OK7, Sp7, Fl7. unfold fr' in OK7, Sp7, Fl7. cbn [f_allocated] in OK7, Sp7, Fl7. rewrite <- Sc8 in OK7, Sp7.
      inv_ret H. injection H as ->.
      assert (F8 : fine s8).
      { split; [rewrite Ty8; apply F7|rewrite Ty8; apply F7|exact OK7|]. rewrite Sc8, Ty8. pose proof (fi_vars _ F7) as V. rewrite Sc7 in V.
        apply Forall_cons_iff in V. destruct V as [W1 W2]. constructor; auto. unfold frame_vars in *. rewrite El7 in W1. cbn. rewrite !Forall_app in *. tauto. }
      assert (P48 : pre (types s4) (types s8)). { rewrite Ty8, <- Ty5. apply S7. }
      pose proof (fine_plain _ F8) as Si8.
      split.
      { split; auto. split; [eapply pre_trans; eauto|]. eapply sext_trans; [apply S1|]. rewrite Sc1. eapply sext_trans; [exact Sp|exact Sp7]. }
      split; cbn [fst snd]; [rewrite Ty8; auto|]. rewrite Sc8. cbn [top_typed f_statics f_args].
      exists (snd q). fold fr' in Sp7. rewrite Sc8 in Sp7. inversion Sp7 as [|? ? ? ? X78 _]; subst.
      assert (G38 : forall e0 Ss As Ls t0, typed (types s3) Ss As Ls e0 t0 -> typed (types s8) Ss As Ls e0 t0).
      { intros e0 Ss As Ls t0 T0. eapply typed_grow; [exact Si4|apply pre_sle; exact P48|exact Si8|].
        eapply typed_grow; [exact Si3|exact A3|exact Si4|exact T0]. }
      split.
      - apply all2_F2. clear - T3 CD Sc3 El3 Iv3 Ht3 X78 G38 Si8 Si4 P48 Ln3 Lq Lds.
        assert (Lx : ltypes fr3 = ltypes fr' ++ map (fun v => if sv_used v then Some (sv_type v) else None) n3).
        { destruct fr3 as [a3 b3 c3 d3 e3]. cbn in El3. subst c3. destruct (ltypes_app (types s3) a3 b3 l3 n3 d3 e3 Iv3) as [-> _]. reflexivity. }
        assert (Base : forall e0 t0 u0, tyd s3 (t0, e0) -> conv (types s4) u0 t0 ->
          typed (types s8) (map sv_type (f_statics fr7)) (map sv_type (f_args fr7))
            (ltypes (MkFrame (f_statics fr7) (f_args fr7) l7 (f_allocated fr) (f_captured fr7)) ++
             map (fun t => if existsb sv_used n3 then Some t else None) (snd q)) e0 u0).
        { intros e0 t0 u0 [_ T0] C0. cbn [fst snd] in T0. rewrite Sc3 in T0. cbn [top_typed] in T0. apply G38 in T0.
          assert (C8 : conv (types s8) t0 u0). { apply conv_sym. eapply conv_grow; [exact Si4|apply pre_sle; exact P48|exact Si8|exact C0]. }
          destruct X78 as [X1 X2 (lx & x & X3 & X3') _ _]. cbn in X1, X2, X3, X3'. rewrite X3, map_app. apply typed_weak.
          rewrite (vle_types _ _ X3'), (vle_types _ _ X2).
          eapply typed_ctx; [exact T0|apply F2_conv_refl|apply F2_conv_refl| |exact C8].
          rewrite Lx. apply Forall2_app; [apply vle_ltypes, values_ext; auto|]. rewrite <- Ht3. clear. destruct (existsb sv_used n3) eqn:Ex.
          - clear Ex. induction n3 as [|v m IH]; cbn; constructor; auto. destruct (sv_used v); cbn; eauto using conv_refl.
          - induction n3 as [|v m IH]; cbn; [constructor|]. cbn in Ex. apply orb_false_iff in Ex. destruct Ex as [-> Ex]. constructor; cbn; auto. }
        clear - T3 CD Base. set (L := _ ++ _) in Base |- *. clearbody L. induction CD as [|t0 d0 ts0 ds0 H0 CD IH]; cbn; constructor.
        + destruct d0 as [a b]. apply Forall_cons_iff in T3. destruct T3 as [T3 _]. cbn. eapply Base; eauto.
        + apply Forall_cons_iff in T3. apply IH. tauto.
      - rewrite Sc7 in T7. cbn [top_typed fst snd] in T7. rewrite <- Ty8 in T7.
        assert (Lx : ltypes fr7 = ltypes (MkFrame (f_statics fr7) (f_args fr7) l7 (f_allocated fr) (f_captured fr7)) ++
                       map (fun v => if sv_used v then Some (sv_type v) else None) n7).
        { clear - El7 Iv7. destruct fr7 as [a3 b3 c3 d3 e3]. cbn in El7. subst c3. destruct (ltypes_app [] a3 b3 l7 n7 d3 e3 Iv7) as [-> _]. reflexivity. }
        eapply typed_ctx; [exact T7|apply F2_conv_refl|apply F2_conv_refl| |apply conv_refl].
        rewrite Lx. apply Forall2_app; [apply F2_refl, lconv_refl|].
        assert (Cr8 : Forall2 (conv (types s8)) (map sv_type n7) (snd q)).
        { rewrite (vle_types _ _ V7'), N2. clear - Cr Si4 Si8 P48. induction Cr; constructor; auto.
          eapply conv_grow; [exact Si4|apply pre_sle; exact P48|exact Si8|auto]. }
        clear - Cr8. revert Cr8. generalize (snd q) as ts0. induction n7 as [|v m IH]; intros [|t0 ts0] C; cbn in *; inversion C; subst; constructor; auto.
        destruct (sv_used v); cbn; eauto.
    Qed.
  End parts.
End check.
