(** * Running well tight expressions: proofs for CheckProps.v. *)
From Coq Require Import List Arith Lia Bool.
From Verif Require TypeModel.
From Verif Require Import CheckTyping FuncModel CodeModel CompileModel CompileEval CheckSafe.
From Verif Require CompileStatic CompileDyn FuncProps CheckScope.
Import ListNotations.

Lemma F2_rev {A B} (P : A -> B -> Prop) l m : Forall2 P l m -> Forall2 P (rev l) (rev m).
Proof. intros F. induction F; cbn; auto. apply Forall2_app; auto. Qed.
Lemma F2_map_r {A B C} (P : A -> C -> Prop) (f : B -> C) l m : Forall2 P l (map f m) <-> Forall2 (fun x y => P x (f y)) l m.
Proof.
  split.
  - revert m. induction l as [|x l IH]; intros [|y m] F; inversion F; subst; constructor; auto.
  - intros F. induction F; cbn; auto.
Qed.
Lemma in_sizes e l : In e l -> size e <= CompileStatic.sizes l.
Proof. induction l as [|x l IH]; cbn; [contradiction|]. intros [->|H]; [lia|]. apply IH in H. unfold CompileStatic.sizes in *. lia. Qed.

Lemma seq_types (ts : list nat) : forall Sg, Forall2 (fun l t => nth_error (Sg ++ ts) l = Some t) (seq (length Sg) (length ts)) ts.
Proof.
  induction ts as [|t ts IH]; intros Sg; cbn; constructor.
  - rewrite nth_error_app2 by auto. rewrite Nat.sub_diag. reflexivity.
  - specialize (IH (Sg ++ [t])). rewrite <- app_assoc, app_length, Nat.add_1_r in IH. exact IH.
Qed.

Section running.
  Variable tys : TypeModel.store.
  Hypothesis Si : simple tys.
  Notation conv := (CheckTyping.conv tys).
  Notation vty := (vty tys). Notation tight := (tight tys).
  Notation okr := (okr tys). Notation okl := (okl tys). Notation st_ok := (st_ok tys). Notation callf_ok := (callf_ok tys).

  Section ev.
    Variable callf : st tc -> val tc -> list (val tc) -> res tc.
    Hypothesis Hc : callf_ok callf.

    Definition env_ok (Sg : list nat) (env : list (option (val tc))) (L : list (option nat)) : Prop :=
      Forall2 (fun o l => match l with Some t => exists v, o = Some v /\ vty Sg v t | None => True end) env L.
    Lemma env_grows Sg Sg' env L : grows Sg Sg' -> env_ok Sg env L -> env_ok Sg' env L.
    Proof.
      intros G F. induction F as [|o l env L H F IH]; constructor; auto. destruct l; auto. destruct H as (v & -> & T).
      exists v. split; auto. eapply vty_weaken; eauto.
    Qed.

    Variables (statics args : list (val tc)) (Ss As : list nat).

    Definition ctx (Sg : list nat) (env : list (option (val tc))) (L : list (option nat)) : Prop :=
      Forall2 (vty Sg) statics Ss /\ Forall2 (vty Sg) args As /\ env_ok Sg env L.
    Lemma ctx_grows Sg Sg' env L : grows Sg Sg' -> ctx Sg env L -> ctx Sg' env L.
    Proof. intros G (A & B & C). split; [|split]; eauto using vtys_weaken, env_grows. Qed.

    Lemma F2_nth' {A B} (P : A -> B -> Prop) l m i y : Forall2 P l m -> nth_error m i = Some y -> exists x, nth_error l i = Some x /\ P x y.
    Proof. intros F. revert i. induction F; intros [|i] E; cbn in *; try discriminate; eauto. injection E as <-. eauto. Qed.
    Lemma lookup_ok Sg env L v t : ctx Sg env L -> vtype Ss As L v = Some t ->
      exists x, lookup statics args env v = Some x /\ vty Sg x t.
    Proof.
      intros (HS & HA & HL) E. destruct v as [i|i|i]; cbn in *.
      - eapply F2_nth'; eauto.
      - eapply F2_nth'; eauto.
      - destruct (nth_error L i) as [[u|]|] eqn:El; try discriminate. injection E as ->.
        destruct (F2_nth' _ _ _ _ _ HL El) as (o & -> & v & -> & T). eauto.
    Qed.
    Lemma lookups_ok Sg env L vs ts : ctx Sg env L -> Forall2 (fun v t => vtype Ss As L v = Some t) vs ts ->
      exists xs, lookups statics args env vs = Some xs /\ Forall2 (vty Sg) xs ts.
    Proof.
      intros C F. induction F as [|v t vs ts E F IH]; cbn; [eauto|]. destruct IH as (xs & -> & T).
      destruct (lookup_ok _ _ _ _ _ C E) as (x & -> & Tx). eauto.
    Qed.

    (** What the main lemma says of one expression. *)
    Definition good_expr (e : tc) : Prop := forall exit L t Sg env s, tight Ss As L e t -> ctx Sg env L -> st_ok Sg (refs s) ->
      okr Sg (refs s) (depth s) exit t (ev callf statics args exit e env s).

    Lemma list_ok l : Forall good_expr l -> forall L ts Sg env s, Forall2 (tight Ss As L) l ts -> ctx Sg env L -> st_ok Sg (refs s) ->
      okl Sg (refs s) (depth s) ts (ev_list (fun e s => ev callf statics args false e env s) l s).
    Proof.
      intros G. induction G as [|e l Ge G IH]; intros L ts Sg env s T C K; inversion T as [|? t ? ts' Te T']; subst; cbn.
      - exists Sg. auto using grows_refl, later_refl.
      - pose proof (Ge false _ _ _ _ _ Te C K) as H. destruct (ev callf statics args false e env s) as [o s1].
        destruct H as [->|(Sg1 & K1 & G1 & L1 & D1 & H)]; [left; auto|]. destruct o; try contradiction.
        + pose proof (IH _ _ Sg1 env s1 T' (ctx_grows _ _ _ _ G1 C) K1) as H2.
          destruct (ev_list (fun e s => ev callf statics args false e env s) l s1) as [vs s2|o s2]; cbn in H2 |- *.
          * destruct H2 as (Sg2 & K2 & G2 & L2 & D2 & T2). exists Sg2. split; auto. split; [eapply grows_trans; eauto|].
            split; [eapply later_trans; eauto|]. split; [congruence|]. constructor; auto. eapply vty_weaken; eauto.
          * destruct H2 as [->|(-> & Sg2 & K2 & G2 & L2 & D2)]; [left; auto|right]. split; auto. exists Sg2.
            split; auto. split; [eapply grows_trans; eauto|]. split; [eapply later_trans; eauto|]. congruence.
        + destruct H; discriminate.
        + right. split; auto. exists Sg1. auto.
        + left; auto.
    Qed.

    (** Lists. *)
    Lemma list_value_ok Sg t el vs : is_list tys t el -> Forall (fun v => vty Sg v el) vs -> vty Sg (list_value vs) t.
    Proof.
      intros (c & e & x & y & z & w & el' & tl & D & U & D' & C1 & C2) F.
      assert (forall v, In v vs -> vty Sg v el') as T.
      { intros v Hv. eapply vty_conv; [exact Si| |apply conv_sym; exact C1]. rewrite Forall_forall in F. auto. }
      clear F. induction vs as [|v vs IH]; cbn [list_value CheckSafe.vty].
      - exists [(x, c); (y, e)], y, e. split; auto. split; auto. exists []. split; auto. cbn. auto.
      - exists [(x, c); (y, e)], x, c. split; auto. split; auto. exists [(z, el'); (w, tl)]. split; auto. cbn.
        split; [apply T; left; auto|]. split; auto. eapply vty_conv; [exact Si| |apply conv_sym; exact C2]. apply IH. intros u Hu. apply T. right; auto.
    Qed.

    Lemma spine_typed e : forall acc h xs L t Ys R, spine e acc = (h, xs) -> tight Ss As L e t -> Forall2 (tight Ss As L) acc Ys ->
      arrow tys t Ys R -> exists ht Xs, tight Ss As L h ht /\ Forall2 (tight Ss As L) xs Xs /\ arrow tys ht Xs R.
    Proof.
      induction e using CompileStatic.tc_ind'; intros acc h xs L ty Ys R Sp T F A; cbn [spine] in Sp;
        try (injection Sp as <- <-; eauto; fail).
      cbn [CheckSafe.tight] in T. destruct T as (ft & x & r & T1 & Fx & T2 & C).
      eapply IHe1 with (Ys := x :: Ys); eauto. cbn. exists x, r. split; auto. split; [apply conv_refl|].
      eapply arrow_conv; [exact Si|apply conv_sym; exact C|apply F2_conv_refl|apply conv_refl|exact A].
    Qed.

    Lemma fields_ok sv st_ xs0 (Dx : is_data tys false xs0 st_) : forall fs done_ rest L Sg env s, xs0 = done_ ++ rest ->
      Forall (fun o => match o with Some e => good_expr e | None => True end) fs ->
      Forall2 (fun o u => match o with Some e => tight Ss As L e u | None => True end) fs (map snd rest) ->
      ctx Sg env L -> st_ok Sg (refs s) -> vty Sg sv st_ ->
      okl Sg (refs s) (depth s) (map snd rest)
        (ev_fields (fun e s => ev callf statics args false e env s) sv (length done_) fs s).
    Proof.
      induction fs as [|o fs IH]; intros done_ rest L Sg env s E G T C K Tv; inversion T as [|? u ? us To T' E1 E2]; subst; cbn.
      - exists Sg. auto using grows_refl, later_refl.
      - destruct rest as [|[x u'] rest]; [discriminate|]. cbn in E2. injection E2 as -> ->.
        apply Forall_cons_iff in G. destruct G as [Go G]. 
        assert (E' : done_ ++ (x, u') :: rest = (done_ ++ [(x, u')]) ++ rest) by (rewrite <- app_assoc; auto).
        assert (Len : S (length done_) = length (done_ ++ [(x, u')])) by (rewrite app_length; cbn; lia).
        rewrite Len. destruct o as [e|].
        + pose proof (Go false _ _ _ _ _ To C K) as H. destruct (ev callf statics args false e env s) as [o s1].
          destruct H as [->|(Sg1 & K1 & G1 & L1 & D1 & H)]; [left; auto|]. destruct o; try contradiction.
          * pose proof (IH (done_ ++ [(x, u')]) rest L Sg1 env s1 E' G T' (ctx_grows _ _ _ _ G1 C) K1 (vty_weaken _ _ _ _ _ G1 Tv)) as H2.
            destruct (ev_fields _ sv (length (done_ ++ [(x, u')])) fs s1) as [vs s2|o s2]; cbn in H2 |- *.
            -- destruct H2 as (Sg2 & K2 & G2 & L2 & D2 & T2). exists Sg2. split; auto. split; [eapply grows_trans; eauto|].
               split; [eapply later_trans; eauto|]. split; [congruence|]. constructor; auto. eapply vty_weaken; eauto.
            -- destruct H2 as [->|(-> & Sg2 & K2 & G2 & L2 & D2)]; [left; auto|right]. split; auto. exists Sg2.
               split; auto. split; [eapply grows_trans; eauto|]. split; [eapply later_trans; eauto|]. congruence.
          * destruct H; discriminate.
          * right. split; auto. exists Sg1. auto.
          * left; auto.
        + pose proof (strict_typed _ Si _ _ _ _ K Tv) as H. destruct (strict_value (refs s) sv) as [w| |]; try contradiction.
          * destruct H as [Tw Nw]. destruct (canon_struct _ _ _ _ _ Tw Nw Dx) as (ws & -> & Tws).
            assert (Ei : nth_error (map snd (done_ ++ (x, u') :: rest)) (length done_) = Some u').
            { rewrite map_app, nth_error_app2 by (rewrite map_length; auto). rewrite map_length, Nat.sub_diag. reflexivity. }
            destruct (F2_nth' _ _ _ _ _ Tws Ei) as (wv & -> & Twv).
            pose proof (IH (done_ ++ [(x, u')]) rest L Sg env s E' G T' C K Tv) as H2.
            destruct (ev_fields _ sv (length (done_ ++ [(x, u')])) fs s) as [vs s2|o s2]; cbn in H2 |- *; auto.
            destruct H2 as (Sg2 & K2 & G2 & L2 & D2 & T2). exists Sg2. repeat (split; auto). constructor; auto. eapply vty_weaken; eauto.
          * right. split; auto. exists Sg. auto using grows_refl, later_refl.
    Qed.

    Lemma F_all {A} (P : A -> Prop) l : all P l -> Forall P l.
    Proof. apply all_F. Qed.

    Lemma ev_ok_size : forall k e, size e <= k -> good_expr e.
    Proof.
      induction k as [|k IH]; intros e Sz; [destruct e; cbn in Sz; lia|].
      assert (IHl : forall l, CompileStatic.sizes l <= k -> Forall good_expr l).
      { intros l Hl. apply Forall_forall. intros e' He'. apply IH. apply in_sizes in He'. lia. }
      intros exit L t Sg env s T C K. destruct e as [|v|r bs b|fs|src fs|tag a|c nt ts d|kd o i|scope b|f a|fs|ls]; cbn [size] in Sz.
      - cbn [ev]. apply okr_ret; auto.
      - destruct T as (u & E & Cv). destruct (lookup_ok _ _ _ _ _ C E) as (x & Ex & Tx). cbn [ev]. rewrite Ex.
        apply okr_ret; auto. eapply vty_conv; eauto.
      - (* let *)
        cbn [CheckSafe.tight] in T. destruct T as (ts & T1 & T2). apply all2_F2 in T1.
        assert (Ln : length bs = length ts) by (eapply CheckScope.F2_length; eauto).
        assert (Gb : Forall good_expr bs) by (apply IHl; unfold CompileStatic.sizes; lia).
        assert (Gd : good_expr b) by (apply IH; lia). cbn [ev].
        destruct r.
        + rewrite alloc_refs_eq. cbv iota beta. set (s1 := mk_st (refs s ++ repeat None (length bs)) (depth s) (prof s)).
          set (ns := seq (length (refs s)) (length bs)).
          assert (K1 : st_ok (Sg ++ ts) (refs s1)) by (cbn; rewrite Ln; apply alloc_ok; auto).
          assert (G1 : grows Sg (Sg ++ ts)) by (eexists; reflexivity).
          assert (L1 : later (refs s) (refs s1)).
          { split; cbn; [rewrite app_length; lia|]. intros i Hi. apply nth_error_app1; auto. }
          assert (Rl : Forall2 (fun l t => nth_error (Sg ++ ts) l = Some t) ns ts).
          { unfold ns. rewrite <- (k_len _ _ _ K), Ln. apply seq_types. }
          assert (C1 : ctx (Sg ++ ts) (env ++ map Some (map VRef ns)) (L ++ map Some ts)).
          { destruct (ctx_grows _ _ _ _ G1 C) as (A & B & D). split; [|split]; auto. apply Forall2_app; auto.
            clear - Rl. revert Rl. generalize (Sg ++ ts) as Sx. generalize ts as ts'. generalize ns as ns'. intros ns' ts' Sx Rl.
            induction Rl as [|l t0 ns' ts' E F IH]; cbn; constructor; auto. exists (VRef l). split; auto.
            exists t0. split; auto. apply conv_refl. }
          pose proof (list_ok bs Gb _ _ _ _ s1 T1 C1 K1) as H. cbn in H.
          destruct (ev_list (fun e s => ev callf statics args false e (env ++ map Some (map VRef ns)) s) bs s1) as [ds s2|o s2].
          2:{ destruct H as [->|(-> & Sg2 & K2 & G2 & L2 & D2)]; [left; auto|right]. exists Sg2. split; auto.
              split; [eapply grows_trans; eauto|]. split; [eapply later_trans; eauto|]. auto. }
          destruct H as (Sg2 & K2 & G2 & L2 & D2 & Td).
          pose proof (assign_refs_ok _ Si Sg2 ns ds ts s2 (length (refs s)) K2) as Ha.
          assert (N : NoDup ns) by apply seq_NoDup.
          assert (U : Forall (fun l => length (refs s) <= l /\ nth_error (refs s2) l = Some None) ns).
          { apply Forall_forall. intros l Hl. apply in_seq in Hl. split; [lia|]. destruct L2 as [L2 L2'].
            rewrite L2' by (cbn; rewrite app_length, repeat_length; lia). cbn. rewrite nth_error_app2 by lia.
            apply nth_error_repeat. lia. }
          assert (Rl2 : Forall2 (fun l t => nth_error Sg2 l = Some t) ns ts).
          { destruct G2 as [d ->]. clear - Rl. revert Rl. generalize (Sg ++ ts) as Sx. intros Sx Rl.
            induction Rl; constructor; auto. rewrite nth_error_app1; auto. apply nth_error_Some. congruence. }
          specialize (Ha N U Td Rl2).
          assert (Hl : forall s3 : st tc, (st_ok Sg2 (refs s3) /\ depth s3 = depth s2 /\ length (refs s3) = length (refs s2) /\
              (forall i, i < length (refs s) -> nth_error (refs s3) i = nth_error (refs s2) i)) ->
              st_ok Sg2 (refs s3) /\ grows Sg Sg2 /\ later (refs s) (refs s3) /\ depth s3 = depth s).
          { intros s3 (A & B & D & E). split; auto. split; [eapply grows_trans; eauto|]. split; [|congruence].
            destruct (later_trans _ _ _ L1 L2) as [L3 L3']. split; [lia|]. intros i Hi. rewrite E by auto. apply L3'; auto. }
          destruct (assign_refs (map VRef ns) ds s2) as [[[s3|]|] s4]; try contradiction.
          * apply Hl in Ha. destruct Ha as (K3 & G3 & L3 & D3). rewrite <- D3. eapply okr_from; [exact G3|exact L3|].
            apply Gd with (L := L ++ map Some ts); auto. destruct (ctx_grows _ _ _ _ G3 C) as (A & B & D). split; [|split]; auto.
            apply Forall2_app; auto. clear - Td. induction Td; cbn; constructor; eauto.
          * apply Hl in Ha. destruct Ha as (K3 & G3 & L3 & D3). right. exists Sg2. auto.
        + assert (C1 : ctx Sg (env ++ repeat None (length bs)) (L ++ map (fun _ => None) ts)).
          { destruct C as (A & B & D). split; [|split]; auto. apply Forall2_app; auto. rewrite Ln. clear. induction ts; cbn; auto. }
          pose proof (list_ok bs Gb _ _ _ _ s T1 C1 K) as H.
          eapply okr_list; [exact H|]. intros Sg2 ds s2 K2 G2 L2 D2 Td. cbn [assign_refs]. rewrite <- D2. eapply okr_from; [exact G2|exact L2|].
          apply Gd with (L := L ++ map Some ts); auto. destruct (ctx_grows _ _ _ _ G2 C) as (A & B & D). split; [|split]; auto.
          apply Forall2_app; auto. clear - Td. induction Td; cbn; constructor; eauto.
      - (* struct *)
        cbn [CheckSafe.tight] in T. destruct T as (xs & D & T). apply all2_F2 in T. cbn [ev].
        eapply okr_list; [eapply list_ok; eauto; apply IHl; unfold CompileStatic.sizes; lia|].
        intros Sg2 vs s2 K2 G2 L2 D2 Tv. right. exists Sg2. split; auto. split; auto. split; auto. split; auto. cbn. exists xs. split; auto. apply all2_F2; auto.
      - (* copy *)
        cbn [CheckSafe.tight] in T. destruct T as (xs & D & T1 & T2). apply all2_F2 in T2. cbn [ev].
        eapply okr_then; [apply IH with (L := L) (t := t); auto; lia|].
        intros Sg1 sv s1 K1 G1 L1 D1 Tv. rewrite <- D1. eapply okr_from; [exact G1|exact L1|].
        eapply okr_list; [apply (fields_ok sv t xs D fs [] xs L Sg1 env s1); eauto using ctx_grows|].
        + clear - IH Sz. induction fs as [|[e|] fs IHf]; constructor; auto.
          * apply IH. cbn in Sz. lia.
          * apply IHf. cbn in Sz |- *. lia.

        + intros Sg2 vs s2 K2 G2 L2 D2 Tvs. right. exists Sg2. split; auto. split; auto. split; auto. split; auto.
          cbn. exists xs. split; auto. apply all2_F2; auto.
      - (* union *)
        cbn [CheckSafe.tight] in T. destruct T as (xs & x & u & D & E & T). cbn [ev].
        eapply okr_then; [apply IH with (L := L) (t := u); auto; lia|].
        intros Sg1 v s1 K1 G1 L1 D1 Tv. right. exists Sg1. split; auto. split; auto. split; auto. split; auto. cbn. exists xs, x, u. auto.
      - (* select *)
        cbn [CheckSafe.tight] in T. destruct T as (ct & xs & T1 & D & Ln & T2 & T3). apply F_all in T2. cbn [ev].
        eapply okr_then; [apply IH with (L := L) (t := ct); auto; lia|].
        intros Sg1 v s1 K1 G1 L1 D1 Tv. rewrite <- D1. eapply okr_from; [exact G1|exact L1|].
        pose proof (ctx_grows _ _ _ _ G1 C) as C1.
        pose proof (strict_typed _ Si _ _ _ _ K1 Tv) as H. destruct (strict_value (refs s1) v) as [w| |]; try contradiction.
        2:{ apply okr_abort; auto. }
        destruct H as [Tw Nw]. destruct (canon_union _ _ _ _ _ Tw Nw D) as (tag & a & x & u & -> & E & Ta).
        assert (Sd : size d <= k) by lia. assert (St : fold_right (fun p n => size (snd p) + n) 0 ts <= k) by lia.
        rewrite Ln. rewrite (proj2 (Nat.ltb_lt _ _)) by (apply nth_error_Some; congruence).
        clear - IH T2 T3 Sd St C1 K1. induction T2 as [|[n e] ts Te T2 IHt]; [apply IH with (L := L); auto|].
        cbn in St. destruct (n =? tag); [apply IH with (L := L); auto; lia|]. apply IHt; auto. lia.
      - (* access *)
        cbn [CheckSafe.tight] in T. destruct T as (ot & xs & x & u & T & D & E & Cv). cbn [ev].
        eapply okr_then; [apply IH with (L := L) (t := ot); auto; lia|].
        intros Sg1 v s1 K1 G1 L1 D1 Tv. rewrite <- D1. eapply okr_from; [exact G1|exact L1|].
        pose proof (strict_typed _ Si _ _ _ _ K1 Tv) as H. destruct (strict_value (refs s1) v) as [w| |]; try contradiction.
        2:{ apply okr_abort; auto. }
        destruct H as [Tw Nw]. destruct kd; cbn in D.
        + destruct (canon_struct _ _ _ _ _ Tw Nw D) as (ws & -> & Tws).
          assert (Ei : nth_error (map snd xs) i = Some u) by (rewrite nth_error_map, E; auto).
          destruct (F2_nth' _ _ _ _ _ Tws Ei) as (wv & -> & Twv). apply okr_ret; auto. eapply vty_conv; eauto.
        + destruct (canon_union _ _ _ _ _ Tw Nw D) as (tag & a & y & u2 & -> & E' & Ta).
          destruct (tag =? i) eqn:Q; [|apply okr_abort; auto]. apply Nat.eqb_eq in Q. subst tag. rewrite E in E'. injection E' as <- <-.
          apply okr_ret; auto. eapply vty_conv; eauto.
      - (* func *)
        cbn [CheckSafe.tight] in T. destruct T as (x & r & us & F & V & T). cbn [ev].
        destruct (lookups_ok _ _ _ _ _ C V) as (xs & -> & Txs). destruct (merge_func scope b) as [nargs b'] eqn:Em.
        destruct (merge_func_typed tys scope b nargs b' us x r Em) as (As1 & R & Ln & A & Tb); auto.
        { eapply CheckScope.F2_length; eauto. }
        apply okr_ret; auto. cbn. exists us, (x :: As1), R. split; [|split; [cbn; lia|split; [lia|split; auto]]].
        + cbn. exists x, r. split; auto. split; auto. apply conv_refl.
        + apply all2_F2; auto.
      - (* apply *)
        destruct (spine (TApply f a) []) as [h xs] eqn:Sp.
        rewrite (CompileDyn.ev_apply _ _ _ exit f a env s h xs Sp).
        destruct (CompileStatic.spine_spec _ _ _ _ Sp) as (_ & _ & Sz2 & _). specialize (Sz2 _ _ eq_refl). cbn [size CompileStatic.sizes fold_right] in Sz2.
        destruct (spine_typed _ _ _ _ L t [] t Sp T (Forall2_nil _) (conv_refl _ _)) as (ht & Xs & Th & Txs & A).
        assert (Ne : xs <> []).
        { intros ->. cbn in Sp. destruct (CompileDyn.spine_fst f [a]) as [_ L2]. rewrite Sp in L2. cbn in L2. destruct (snd (spine f [])); discriminate. }
        eapply okr_then; [apply IH with (L := L) (t := ht); auto; lia|].
        intros Sg1 fv s1 K1 G1 L1 D1 Tf. rewrite <- D1. eapply okr_from; [exact G1|exact L1|].
        pose proof (ctx_grows _ _ _ _ G1 C) as C1.
        eapply okr_list; [apply (list_ok (rev xs)) with (L := L) (ts := rev Xs); auto using F2_rev|].
        { apply Forall_rev. apply IHl. lia. }
        intros Sg2 vs s2 K2 G2 L2 D2 Tvs. rewrite <- D2. eapply okr_from; [exact G2|exact L2|].
        apply F2_rev in Tvs. rewrite rev_involutive in Tvs.
        assert (Tf2 : vty Sg2 fv ht) by (eapply vty_weaken; eauto).
        assert (Nv : rev vs <> []).
        { intros E. rewrite E in Tvs. inversion Tvs; subst. inversion Txs; subst. auto. }
        unfold CompileDyn.apply_values. destruct exit.
        + pose proof (strict_typed _ Si _ _ _ _ K2 Tf2) as H. destruct (strict_value (refs s2) fv) as [fn| |] eqn:Es; try contradiction.
          2:{ apply okr_abort; auto. }
          destruct H as [Tfn Nfn]. destruct (arrow_func _ _ _ _ A) as (x & r & Fx).
          { destruct Xs; cbn; [|lia]. inversion Txs; subst. contradiction. }
          destruct (canon_func _ _ _ _ _ _ Tfn Nfn Fx) as (na & ->).
          right. exists Sg2. split; auto. split; [apply grows_refl|]. split; [apply later_refl|]. split; auto.
          split; auto. split; auto. exists ht, Xs. eauto.
        + pose proof (Hc Sg2 s2 fv (rev vs) ht Xs t K2 Tf2 Tvs Nv A) as H. destruct (callf s2 fv (rev vs)) as [o s3].
          destruct H as [->|(Sg3 & K3 & G3 & L3 & D3 & H)]; [left; auto|]. destruct o; try contradiction.
          * right. exists Sg3. auto.
          * destruct H; discriminate.
          * right. exists Sg3. auto.
          * left; auto.
      - (* list *)
        cbn [CheckSafe.tight] in T. destruct T as (el & Hl & T). apply F_all in T. cbn [ev].
        eapply okr_list; [apply (list_ok fs) with (L := L) (ts := map (fun _ => el) fs); auto|].
        { apply IHl. unfold CompileStatic.sizes. lia. }
        { clear - T. induction T; cbn; constructor; auto. }
        intros Sg2 vs s2 K2 G2 L2 D2 Tv. right. exists Sg2. split; auto. split; auto. split; auto. split; auto.
        eapply list_value_ok; eauto. clear - Tv. revert vs Tv. induction fs; intros vs Tv; inversion Tv; subst; constructor; auto.
      - (* literal *)
        cbn [CheckSafe.tight] in T. destruct T as (el & xs & Hl & D & F). cbn [ev]. apply okr_ret; auto. unfold literal_value.
        eapply list_value_ok; eauto. clear - F D. induction F as [|l ls (x & u & E & U) F IH]; cbn; constructor; auto.
        exists xs, x, u. split; auto. split; auto. exists []. split; auto. cbn. auto.
    Qed.
    Lemma ev_ok e : good_expr e.
    Proof. eapply ev_ok_size. reflexivity. Qed.
  End ev.

  (** ** Calls *)
  Lemma F2_firstn {A B} (P : A -> B -> Prop) l m n : Forall2 P l m -> Forall2 P (firstn n l) (firstn n m).
  Proof. intros F. revert n. induction F; intros [|n]; cbn; auto. Qed.
  Lemma F2_skipn {A B} (P : A -> B -> Prop) l m n : Forall2 P l m -> Forall2 P (skipn n l) (skipn n m).
  Proof. intros F. revert n. induction F; intros [|n]; cbn; auto. Qed.

  Definition okt (n : nat) : Prop := forall Sg s g xs gt Xs R d fn,
    st_ok Sg (refs s) -> vty Sg g gt -> Forall2 (vty Sg) xs Xs -> xs <> [] -> arrow tys gt Xs R -> depth s = S d ->
    strict_value (refs s) g = SVal fn -> okr Sg (refs s) d false R (tail_call ev_run n s g xs).

  (** The function of a call: how many arguments it takes, and what running it gives. *)
  Lemma arity_ok callf Sg fn ft na : callf_ok callf -> vty Sg fn ft -> num_args_of fn = Some na ->
    exists As Ra, arrow tys ft As Ra /\ length As = na /\ 0 < na /\
      forall s args, st_ok Sg (refs s) -> Forall2 (vty Sg) (firstn na args) As ->
        okr Sg (refs s) (depth s) true Ra (run_fn ev_run callf s fn args).
  Proof.
    intros Hc T N. destruct fn as [fs|tag a|n b k ss|n k f xs|l|]; try discriminate; cbn in N; injection N as ->; cbn [CheckSafe.vty] in T.
    - destruct T as (us & As & R & A & L & P & Tss & Tb). apply all2_F2 in Tss. exists As, R. split; auto. split; auto. split; auto.
      intros s args K Ta. cbn [run_fn]. unfold ev_run.
      apply (ev_ok callf Hc ss (firstn na args) us As b true [] R Sg [] s); auto. split; [|split]; auto. constructor.
    - destruct T as (ft0 & As & Bs & R & T & A & Txs & L & P & A2). apply all2_F2 in Txs. exists Bs, R. split; auto. split; auto. split; auto.
      intros s args K Ta. cbn [run_fn].
      assert (Tall : Forall2 (vty Sg) (xs ++ firstn na args) (As ++ Bs)) by (apply Forall2_app; auto).
      assert (Ne : xs ++ firstn na args <> []).
      { intros E. pose proof (CheckScope.F2_length _ _ _ Tall) as Lx. rewrite E, app_length in Lx. cbn in Lx. lia. }
      pose proof (Hc Sg s f (xs ++ firstn na args) ft0 (As ++ Bs) R K T Tall Ne A) as H.
      destruct (callf s f (xs ++ firstn na args)) as [o s']. destruct H as [->|(Sg' & K' & G & Lr & D & H)]; [left; auto|right].
      exists Sg'. destruct o; auto. destruct H; discriminate.
  Qed.

  Lemma arity_split Sg ft As Ra na args Xs R : arrow tys ft As Ra -> length As = na -> Forall2 (vty Sg) args Xs -> arrow tys ft Xs R ->
    na <= length args ->
    Forall2 (vty Sg) (firstn na args) As /\ Forall2 (vty Sg) (skipn na args) (skipn na Xs) /\ arrow tys Ra (skipn na Xs) R.
  Proof.
    intros A L T A2 Le. pose proof (CheckScope.F2_length _ _ _ T) as Ln.
    assert (Lf : length As = length (firstn na Xs)) by (rewrite firstn_length; lia).
    rewrite <- (firstn_skipn na Xs) in A2. destruct (arrow_split _ Si _ _ _ _ _ _ A A2 Lf) as [F A3].
    split; [|split; auto using F2_skipn].
    eapply vtys_conv; [exact Si|apply F2_firstn; exact T|]. clear - F. induction F; constructor; auto. apply conv_sym; auto.
  Qed.

  (** Too few arguments. *)
  Lemma papp_ok Sg ft As Ra na args Xs R f fn : arrow tys ft As Ra -> length As = na -> num_args_of fn = Some na -> vty Sg f ft ->
    Forall2 (vty Sg) args Xs -> arrow tys ft Xs R -> length args < na -> vty Sg (partial_apply fn f args) R.
  Proof.
    intros A L N T Ta A2 Lt. unfold partial_apply. rewrite N. pose proof (CheckScope.F2_length _ _ _ Ta) as Ln.
    set (k := length args) in *. rewrite <- (firstn_skipn k As) in A.
    assert (Lf : length Xs = length (firstn k As)) by (rewrite firstn_length; lia).
    destruct (arrow_split _ Si _ _ _ _ _ _ A2 A Lf) as [F A3]. cbn.
    exists ft, (firstn k As), (skipn k As), Ra. split; auto. split; auto. split; [apply all2_F2; eapply vtys_conv; eauto|].
    split; [rewrite skipn_length; lia|]. split; [lia|auto].
  Qed.

  Lemma pop_ok Sg r0 d t o s : st_ok Sg (refs s) -> later r0 (refs s) -> depth s = S d ->
    match o with Ret v => vty Sg v t | Abort => True | _ => False end -> okr Sg r0 d false t (pop_with o s).
  Proof.
    intros K L D H. unfold pop_with, pop_frame. rewrite D. right. exists Sg. split; auto. split; [apply grows_refl|]. split; auto.
    split; auto. destruct o; auto; contradiction.
  Qed.

  Lemma calls_ok n : callf_ok (ecall n) /\ okt n.
  Proof.
    unfold ecall. induction n as [|n [IHc IHt]].
    - split.
      + intros Sg s f args ft Xs R K T Ta Ne A. left; auto.
      + intros Sg s g xs gt Xs R d fn K T Ta Ne A D E. left; auto.
    - split.
      + intros Sg s f args ft Xs R K T Ta Ne A. rewrite FuncProps.call_S.
        pose proof (strict_typed _ Si _ _ _ _ K T) as H. destruct (strict_value (refs s) f) as [fn| |]; try contradiction.
        2:{ apply okr_abort; auto. }
        destruct H as [Tfn Nfn]. destruct (arrow_func _ _ _ _ A) as (x & r & Fx).
        { destruct Xs; cbn; [|lia]. inversion Ta; subst. contradiction. }
        destruct (canon_func _ _ _ _ _ _ Tfn Nfn Fx) as (na & Na). rewrite Na.
        destruct (arity_ok _ _ _ _ _ IHc Tfn Na) as (As & Ra & Aa & La & Pa & Hrun).
        destruct (length args <? na) eqn:Lt.
        * apply Nat.ltb_lt in Lt. apply okr_ret; auto. eapply papp_ok; eauto.
        * apply Nat.ltb_ge in Lt. cbv zeta.
          destruct (arity_split _ _ _ _ _ _ _ _ Aa La Ta A Lt) as (T1 & T2 & A2).
          set (s1 := push_frame (log (PEnter (block_of fn)) s)). pose proof (Hrun s1 args K T1) as H. cbn [refs depth s1 push_frame log] in H.
          destruct (run_fn ev_run (call ev_run n) s1 fn args) as [o s2].
          assert (Fin : forall x : res tc, okr Sg (refs s) (depth s) false R x -> okr Sg (refs s) (depth s) false R (let '(r', s3) := x in (r', log PExit s3))).
          { intros [o' s3]. auto. }
          apply Fin. destruct H as [->|(Sg2 & K2 & G2 & L2 & D2 & H)]; [left; auto|]. pose proof (vtys_weaken _ _ _ _ _ G2 T2) as T2'.
          destruct o; try contradiction.
          -- destruct (skipn na args) as [|u us] eqn:Eu.
             ++ inversion T2'. rewrite <- H0 in A2. cbn in A2. eapply okr_from; [exact G2|apply later_refl|]. apply pop_ok; auto. eapply vty_conv; eauto.
             ++ unfold pop_frame. rewrite D2. eapply okr_from; [exact G2|exact L2|].
                apply (IHc Sg2 (mk_st (refs s2) (depth s) (prof s2)) v (u :: us) Ra (skipn na Xs) R); auto. discriminate.
          -- destruct H as (_ & Nx & gt & Ys & Tg & Ty & Ag & fn' & Es). eapply okr_from; [exact G2|exact L2|].
             eapply IHt; eauto; [apply Forall2_app; eauto| |eapply arrow_app; eauto].
             destruct args0; [contradiction|discriminate].
          -- eapply okr_from; [exact G2|apply later_refl|]. apply pop_ok; auto.
          -- left; auto.
      + intros Sg s g xs gt Xs R d fn K T Ta Ne A D Es. rewrite FuncProps.tail_call_S.
        pose proof (strict_typed _ Si _ _ _ _ K T) as H. rewrite Es in H |- *.
        destruct H as [Tfn Nfn]. destruct (arrow_func _ _ _ _ A) as (x & r & Fx).
        { destruct Xs; cbn; [|lia]. inversion Ta; subst. contradiction. }
        destruct (canon_func _ _ _ _ _ _ Tfn Nfn Fx) as (na & Na). rewrite Na.
        destruct (arity_ok _ _ _ _ _ IHc Tfn Na) as (As & Ra & Aa & La & Pa & Hrun).
        destruct (length xs <? na) eqn:Lt.
        * apply Nat.ltb_lt in Lt. apply pop_ok; auto using later_refl. eapply papp_ok; eauto.
        * apply Nat.ltb_ge in Lt. cbv zeta.
          destruct (arity_split _ _ _ _ _ _ _ _ Aa La Ta A Lt) as (T1 & T2 & A2).
          set (s1 := log (PReplace (block_of fn)) s). pose proof (Hrun s1 xs K T1) as H. cbn [refs depth s1 log] in H.
          destruct (run_fn ev_run (call ev_run n) s1 fn xs) as [o s2].
          destruct H as [->|(Sg2 & K2 & G2 & L2 & D2 & H)]; [left; auto|]. pose proof (vtys_weaken _ _ _ _ _ G2 T2) as T2'.
          destruct o; try contradiction.
          -- destruct (skipn na xs) as [|u us] eqn:Eu.
             ++ inversion T2'. rewrite <- H0 in A2. cbn in A2. eapply okr_from; [exact G2|apply later_refl|]. apply pop_ok; auto; [congruence|]. eapply vty_conv; eauto.
             ++ pose proof (IHc Sg2 s2 v (u :: us) Ra (skipn na Xs) R K2 H T2' ltac:(discriminate) A2) as H3.
                destruct (call ev_run n s2 v (u :: us)) as [o' s3]. destruct H3 as [->|(Sg3 & K3 & G3 & L3 & D3 & H3)]; [left; auto|].
                destruct o'; try contradiction.
                ** eapply okr_from; [eapply grows_trans; eauto|apply later_refl|]. apply pop_ok; auto; [eapply later_trans; eauto|congruence].
                ** destruct H3; discriminate.
                ** eapply okr_from; [eapply grows_trans; eauto|apply later_refl|]. apply pop_ok; auto; [eapply later_trans; eauto|congruence].
                ** left; auto.
          -- destruct H as (_ & Nx & gt' & Ys & Tg & Ty & Ag & fn' & Es'). eapply okr_from; [exact G2|exact L2|].
             eapply IHt; eauto; [apply Forall2_app; eauto| |eapply arrow_app; eauto|congruence].
             destruct args; [contradiction|discriminate].
          -- eapply okr_from; [exact G2|apply later_refl|]. apply pop_ok; auto. congruence.
          -- left; auto.
  Qed.

  (** A whole expression, with calls nested to any depth. *)
  Theorem run_ok n e statics args Ss As t Sg s : tight Ss As [] e t -> Forall2 (vty Sg) statics Ss -> Forall2 (vty Sg) args As ->
    st_ok Sg (refs s) -> okr Sg (refs s) (depth s) true t (ev_run (ecall n) e 0 statics args s).
  Proof.
    intros T Hs Ha K. unfold ev_run. eapply ev_ok; eauto; [apply calls_ok|]. split; [auto|split; [auto|constructor]].
  Qed.
End running.
