(** * Popping and compacting frames preserves the meaning of values (C11). *)

From Coq Require Import Arith List Bool Lia.
From Verif Require Import GcModel GcInv GcStep GcAlloc GcFrames GcPop GcClient GcAcct GcCopy GcProps.
Import ListNotations.

Definition minv (s : cst) : Prop := sinv s /\ LI [] (c_heap s) /\ copy_ok [] (c_heap s).

(** The histories for which C10 is proved. *)
Definition safe_mode (fix_ : bool) (C : cst -> op -> Prop) : Prop :=
  fix_ = true \/ forall s o, C s o -> pop_owned s o.

(** ** Preservation of [copy_ok] *)

Lemma copy_ok_kept h h' : copy_ok [] h -> fresh h <= fresh h' ->
  (forall x, x < fresh h -> mem h' x = mem h x) ->
  (forall x ob g d, fresh h <= x -> mem h' x = Some ob -> oloc ob = LStack (Some g) d -> False) ->
  (forall x ob, mem h x = Some ob -> x < fresh h) ->
  copy_ok [] h'.
Proof.
  intros C Hf Hm Hn Fr x ob g d Hx Hl.
  destruct (le_lt_dec (fresh h) x) as [Hle|Hlt]; [destruct (Hn _ _ _ _ Hle Hx Hl)|].
  rewrite Hm in Hx by auto. destruct (C _ _ _ _ Hx Hl) as [C1 [C2 C3]].
  split; [lia|]. split.
  - intros e Hs. apply (C2 e). unfold stackobj in *. rewrite Hm in Hs by auto. exact Hs.
  - intros Hi gb Hgb. rewrite Hm in Hgb by auto. destruct (C3 Hi _ Hgb) as [D1 D2]. split; auto.
    eapply Forall2_impl'; [|exact D2]. intros a b. destruct a as [| |y|]; cbn; auto.
    intros [[c [p [e [A [B D]]]]]|[A [B D]]].
    + left. exists c, p, e. rewrite Hm; auto. eapply Fr; eauto.
    + right. split; [lia|]. split; [|auto]. intros e Hs. apply (B e). unfold stackobj in *. rewrite Hm in Hs; auto.
Qed.

Lemma copy_ok_kill h R P h' d : Inv h R P [] -> copy_ok [] h -> d = top h ->
  mem h' = kill_stack (mem h) d -> fresh h' = fresh h -> copy_ok [] h'.
Proof.
  intros I C Hd Hm Hf x ob g e Hx Hl.
  assert (Hs : stackobj (mem h') x e) by (exists ob, (Some g); auto).
  rewrite Hm in Hx, Hs. apply stack_kill in Hs. destruct Hs as [_ Hed].
  pose proof (mem_kill _ _ _ _ Hx) as Hx0. destruct (C _ _ _ _ Hx0 Hl) as [C1 [C2 C3]].
  split; [lia|]. split.
  - intros e' Hs. rewrite Hm in Hs. apply stack_kill in Hs. apply (C2 e'). tauto.
  - intros Hi gb Hgb. rewrite Hm in Hgb. apply mem_kill in Hgb. destruct (C3 Hi _ Hgb) as [D1 D2].
    split; auto.
    destruct (i_stack _ _ _ _ I _ _ _ _ Hx0 Hl) as [Htop _].
    assert (Hnf : nf h x).
    { split; [congruence|]. intros Hg. apply (gc_not_stack I _ _ e Hg). exists ob, (Some g); auto. }
    assert (Hfld : forall y, In (VObj y) (ofields ob) -> forall e', stackobj (mem h) y e' -> e' <> d).
    { intros y Hy e' Hs ->. destruct (i_edge _ _ _ _ I x y Hnf) as [_ He]; [exists ob; auto|].
      assert (Hfx : fr h x e) by (right; right; right; right; exists ob, (Some g); auto).
      assert (Hfy : fr h y d) by (right; right; right; right; exact Hs).
      pose proof (frle_fr I _ _ _ (He _ Hfx) Hfy). lia. }
    revert D2 Hfld. generalize (ofields gb). generalize (ofields ob). intros l l' D2 Hfld.
    induction D2 as [|a b l l' Hab D2 IH]; constructor.
    2:{ apply IH. intros y Hy. apply Hfld. right; auto. }
    destruct a as [| |y|]; cbn in *; auto.
    destruct Hab as [[c [p [e' [A [B D]]]]]|[A [B D]]].
    + left. exists c, p, e'. split; [|auto]. rewrite Hm. unfold kill_stack. rewrite A, B.
      destruct (Nat.eq_dec e' d) as [->|]; [|reflexivity].
      exfalso. apply (Hfld y (or_introl eq_refl) d); auto. exists c, (Some p); auto.
    + right. rewrite Hf. split; [auto|]. split; [|auto]. intros e' Hs. rewrite Hm in Hs.
      apply stack_kill in Hs. apply (B e'). tauto.
Qed.

(** No stack object has a reference the client holds as its copy. *)
Lemma ref_not_copy h R P r h1 : Inv h R P [] -> copy_ok [] h -> mono h h1 ->
  In r (P (top h)) ->
  forall y ob d, mem h1 y = Some ob -> oloc ob = LStack (Some r) d -> False.
Proof.
  intros I C M Hr y ob d Hy Hl.
  destruct (i_pend _ _ _ _ I _ _ (le_n _) Hr) as [_ [rb [w [Hrm [Hrk _]]]]].
  pose proof (i_fresh _ _ _ _ I _ _ Hrm) as Hrf.
  destruct (m_back _ _ M y d) as [ob0 [p [H0 L0]]]; [exists ob, (Some r); auto|].
  destruct (m_stack _ _ M _ _ _ _ H0 L0) as [ob1 [H1 [_ [_ L1]]]]. rewrite Hy in H1. injection H1 as <-.
  destruct L1 as [L1|[-> [g' [L1 Hg']]]].
  - rewrite Hl in L1. injection L1 as <-. destruct (C _ _ _ _ H0 L0) as [_ [_ C3]].
    destruct (C3 (fun x => x) _ Hrm) as [K _].
    destruct (i_stack _ _ _ _ I _ _ _ _ H0 L0) as [_ [Hk _]]. rewrite <- K, Hrk in Hk. exact Hk.
  - rewrite Hl in L1. injection L1 as <-. lia.
Qed.

Lemma copy_ok_set_field h r i v : copy_ok [] h ->
  (forall y ob d, mem h y = Some ob -> oloc ob = LStack (Some r) d -> False) ->
  gcobj (mem h) r -> copy_ok [] (set_field h r i v).
Proof.
  intros C Hr [g0 [rb [Hrm Hrl]]]. set (h' := set_field h r i v).
  assert (Hm : forall y, y <> r -> mem h' y = mem h y).
  { intros y Hy. unfold h', set_field. rewrite Hrm. cbn. unfold upd. destruct (Nat.eq_dec y r); congruence. }
  assert (Hmr : mem h' r = Some (mk_obj (okind rb) (set_nth (ofields rb) i v) (LGc g0))).
  { unfold h', set_field. rewrite Hrm. cbn. unfold upd. destruct (Nat.eq_dec r r); congruence. }
  assert (Hf : fresh h' = fresh h) by (unfold h', set_field; rewrite Hrm; reflexivity).
  assert (Hs : forall y e, stackobj (mem h') y e <-> stackobj (mem h) y e).
  { intros y e. unfold stackobj. destruct (Nat.eq_dec y r) as [->|Hn].
    - rewrite Hmr, Hrm. split; intros [b [p [[= <-] Hb]]]; cbn in Hb; congruence.
    - rewrite Hm by auto. tauto. }
  clearbody h'.
  intros x ob g d Hx Hl.
  assert (Hxr : x <> r) by (intros ->; rewrite Hmr in Hx; injection Hx as <-; discriminate).
  rewrite Hm in Hx by auto. destruct (C _ _ _ _ Hx Hl) as [C1 [C2 C3]].
  split; [lia|]. split; [intros e He; apply Hs in He; eapply C2; eauto|].
  intros Hi gb Hgb. assert (Hgr : g <> r) by (intros ->; eapply Hr; eauto).
  rewrite Hm in Hgb by auto. destruct (C3 Hi _ Hgb) as [D1 D2]. split; auto.
  eapply Forall2_impl'; [|exact D2]. intros a b. apply tr_loc; auto.
  - intros y c p e Hy Hc. rewrite Hm; auto. intros ->. congruence.
  - intros y e He. apply Hs. auto.
Qed.

(** ** What reallocation and the end of the frame preserve *)

Section same.
  Context {h : heap} {R : nat -> list value} {P : nat -> list nat} (I : Inv h R P []).
  Context {h1 : heap} (M : mono h h1) (C1 : copy_ok [] h1).
  Context (E : nat -> Prop) (m0 m' : nat -> option obj).
  Context (HE : forall x y ob d, E x -> mem h1 y = Some ob -> oloc ob = LStack (Some x) d -> False).
  Context (HEs : forall x d, E x -> ~ stackobj (mem h1) x d).
  Context (HEo : forall x, E x -> exists ob ob', m0 x = Some ob /\ m' x = Some ob' /\ okind ob = okind ob' /\
     Forall2 (tr h1) (ofields ob) (ofields ob') /\ forall e, In e (ofields ob) -> gv h (top h) e).
  Context (Hm0 : forall x, ~ E x -> m0 x = mem h x).
  Context (Hm' : forall x ob', ~ E x -> m' x = Some ob' ->
     exists ob1, mem h1 x = Some ob1 /\ okind ob1 = okind ob' /\ ofields ob1 = ofields ob').
  Context (Edec : forall x, E x \/ ~ E x).

  Lemma follows_gv0 v x : gv h (top h) v -> follows m0 v x -> gv h (top h) (VObj x).
  Proof.
    intros Hv F. induction F as [x|v o ob x F IH Ho Hx]; [exact Hv|].
    specialize (IH Hv). destruct (Edec o) as [He|He].
    - destruct (HEo _ He) as [b [b' [H1 [_ [_ [_ H2]]]]]]. rewrite Ho in H1. injection H1 as <-. auto.
    - rewrite Hm0 in Ho by auto. eapply (field_gv h R P (top h) o ob); eauto.
  Qed.

  Lemma tr_same v v' d : d = top h -> gv h d v -> tr h1 v v' ->
    (forall x, follows m' v' x -> exists ob, m' x = Some ob /\ ~ In VUninit (ofields ob)) ->
    same_value m0 v m' v'.
  Proof.
    intros -> Hv Ht Hfol. set (d := top h) in *.
    exists (fun o o' => follows m0 v o /\ tr h1 (VObj o) (VObj o') /\ follows m' v' o').
    split.
    - intros o o' [Fo [To Fo']].
      assert (Go : gv h d (VObj o)) by (eapply follows_gv0; eauto).
      destruct (Edec o) as [Ho|Ho].
      { destruct (HEo _ Ho) as [ob [ob' [A1 [A2 [A3 [A4 _]]]]]].
        destruct To as [[c [g [e [A [B D]]]]]|[A [B D]]]; [exfalso; apply (HEs _ e Ho); exists c, (Some g); auto|].
        injection D as ->. exists ob, ob'. split; [exact A1|]. split; [exact A2|]. split; [exact A3|]. split; [|auto].
        assert (Fld : forall a b, tr h1 a b -> In a (ofields ob) -> In b (ofields ob') ->
          vrel (fun o o' => follows m0 v o /\ tr h1 (VObj o) (VObj o') /\ follows m' v' o') a b).
        { intros a b Hab Ha Hb. destruct a as [| |y|].
          - cbn in Hab. subst b. exact Logic.I.
          - cbn in Hab. subst b. reflexivity.
          - assert (exists y', b = VObj y') as [y' ->].
            { destruct Hab as [[c [g [e [_ [_ ->]]]]]|[_ [_ ->]]]; eauto. }
            cbn. split; [eapply follows_field; eauto|]. split; [exact Hab|]. eapply follows_field; eauto.
          - destruct Hab. }
        revert A4 Fld. generalize (ofields ob). generalize (ofields ob').
        intros l l' F2. induction F2 as [|a b l1 l2 Hab F2 IH]; intros Fld; constructor.
        - apply Fld; cbn; auto.
        - apply IH. intros a' b' H2 H3 H4. apply Fld; cbn; auto. }
      pose proof (Hm0 _ Ho) as Em0.
      destruct Go as [Hn Go']. destruct (mem h o) as [ob|] eqn:Eo; [|destruct Hn; congruence].
      pose proof (i_fresh _ _ _ _ I _ _ Eo) as Hof.
      destruct (Hfol _ Fo') as [ob' [Eo' Hu]].
      assert (NE : ~ E o').
      { intros He. destruct To as [[c [g [e [A [B D]]]]]|[A [B D]]].
        - injection D as ->. eapply HE; eauto.
        - injection D as ->. auto. }
      destruct (Hm' _ _ NE Eo') as [ob1 [E1 [K1 F1]]].
      exists ob, ob'. split; [exact Em0|]. split; [exact Eo'|].
      assert (Fld : forall a b, tr h1 a b -> In a (ofields ob) -> In b (ofields ob') ->
        vrel (fun o o' => follows m0 v o /\ tr h1 (VObj o) (VObj o') /\ follows m' v' o') a b).
      { intros a b Hab Ha Hb. destruct a as [| |y|].
        - cbn in Hab. subst b. exact Logic.I.
        - cbn in Hab. subst b. reflexivity.
        - assert (exists y', b = VObj y') as [y' ->].
          { destruct Hab as [[c [g [e [_ [_ ->]]]]]|[_ [_ ->]]]; eauto. }
          cbn. split; [eapply follows_field; eauto|]. split; [exact Hab|]. eapply follows_field; eauto.
        - destruct Hab. }
      destruct To as [[c [g [e [A [B D]]]]]|[A [B D]]]; injection D as ->.
      + destruct (C1 _ _ _ _ A B) as [_ [_ C3]]. destruct (C3 (fun x => x) _ E1) as [K2 F2].
        destruct (m_back _ _ M o e) as [c0 [p [H0 L0]]]; [exists c, (Some g); auto|].
        rewrite Eo in H0. injection H0 as <-.
        destruct (m_stack _ _ M _ _ _ _ Eo L0) as [c1 [H1 [K3 [F3 _]]]].
        rewrite A in H1. injection H1 as <-.
        split; [congruence|]. split.
        * rewrite <- F1. rewrite F3 in F2. revert F2 Fld. rewrite <- F1.
          generalize (ofields ob1). generalize (ofields ob).
          intros l l' F2. induction F2 as [|a b l l' Hab F2 IH]; intros Fld; constructor.
          -- apply Fld; cbn; auto.
          -- apply IH. intros a' b' H2 H3 H4. apply Fld; cbn; auto.
        * destruct (i_stack _ _ _ _ I _ _ _ _ Eo L0) as [_ [Hk _]]. intros [Hk'|[n Hk']]; rewrite Hk' in Hk; destruct Hk.
      + destruct (m_old _ _ M _ _ Hof E1) as [ob2 [E2 [K2 F2]]]. rewrite Eo in E2. injection E2 as <-.
        split; [congruence|]. split; [|auto].
        assert (Hself : forall a, In a (ofields ob) -> tr h1 a a).
        { intros a Ha. destruct a as [| |y|]; cbn; auto.
          - right. 
            assert (Gy : gv h d (VObj y)) by (eapply (field_gv h R P d o ob); eauto; split; auto).
            destruct Gy as [[Hy _] _]. destruct (mem h y) as [yb|] eqn:Ey; [|congruence].
            split; [pose proof (i_fresh _ _ _ _ I _ _ Ey); pose proof (m_fresh _ _ M); lia|].
            split; [|reflexivity]. intros e Hs. apply (m_back _ _ M) in Hs.
            assert (Hgo : gcobj (mem h) o).
            { destruct (oloc ob) as [p e'|g] eqn:El; [|exists g, ob; auto].
              destruct (m_stack _ _ M _ _ _ _ Eo El) as [ob3 [E3 [_ [_ L3]]]].
              exfalso. destruct L3 as [L3|[_ [g' [L3 _]]]]; [apply (B e'); exists ob3, p; auto|apply (B e'); exists ob3, (Some g'); auto]. }
            destruct (i_gcedge _ _ _ _ I o y Hn Hgo) as [gy Hgy]; [exists ob; auto|].
            eapply genx_stack; eauto.
          - apply Hu. rewrite <- F1, F2. exact Ha. }
        assert (Eq : ofields ob' = ofields ob) by congruence.
        rewrite Eq. rewrite Eq in Fld. revert Hself Fld. generalize (ofields ob).
        intros l Hself Fld. assert (G : forall a, In a l -> vrel (fun o o' => follows m0 v o /\ tr h1 (VObj o) (VObj o') /\ follows m' v' o') a a) by auto.
        clear -G. induction l as [|a l IH]; constructor; [apply G; cbn; auto|apply IH; intros b Hb; apply G; cbn; auto].
    - destruct v as [| |o|]; cbn in Ht; try (subst v'; cbn; auto; fail); [|destruct Hv].
      assert (exists y', v' = VObj y') as [y' ->].
      { destruct Ht as [[c [g [e [_ [_ ->]]]]]|[_ [_ ->]]]; eauto. }
      cbn. split; [constructor|]. split; [exact Ht|constructor].
  Qed.
End same.

(** ** Steps *)

(** Objects that existed before the call keep their kind and fields (except [r]). *)
Definition objs_kept (r : option nat) (h h' : heap) : Prop :=
  forall x ob', x < fresh h -> r <> Some x -> mem h' x = Some ob' ->
    exists ob, mem h x = Some ob /\ okind ob = okind ob' /\ ofields ob = ofields ob'.

Definition assigned (o : op) : option nat := match o with Assign r _ => Some r | _ => None end.

Lemma mono_kept r h h' : mono h h' -> objs_kept r h h'.
Proof. intros M x ob' Hx _ Hm. destruct (m_old _ _ M _ _ Hx Hm) as [ob [H1 [H2 H3]]]. eauto. Qed.

Lemma sm_case (fix_ : bool) (C : cst -> op -> Prop) s o : safe_mode fix_ C -> C s o -> fix_ = true \/ pop_owned s o.
Proof. intros [H|H] Hc; auto. Qed.

Lemma exec_minv fix_ s o s' : minv s -> allowed s o -> fix_ = true \/ pop_owned s o ->
  exec fix_ s o = Some s' ->
  minv s' /\ objs_kept (assigned o) (c_heap s) (c_heap s').
Proof.
  intros [I [L C]] A Hp E.
  assert (I' : sinv s').
  { destruct (exec_inv fix_ s o I A Hp) as [s1 [E1 I1]]. congruence. }
  destruct (li_exec _ _ _ _ L E) as [L' _].
  assert (K : copy_ok [] (c_heap s') /\ objs_kept (assigned o) (c_heap s) (c_heap s'));
    [|destruct K; split; [split; [exact I'|split; auto]|auto]].
  pose proof (l_fresh _ _ L) as Fr.
  assert (Kill : forall h1 h', mono (c_heap s) h1 -> mem h' = kill_stack (mem h1) (top h1) -> 
     objs_kept (assigned o) (c_heap s) h').
  { intros h1 h' M Hm x ob' Hx _ Hm'. rewrite Hm in Hm'. apply mem_kill in Hm'.
    destruct (m_old _ _ M _ _ Hx Hm') as [ob [H1 [H2 H3]]]. eauto. }
  destruct o as [k vs| |data|r v|o i|m vs|v|m vs]; cbn [exec allowed] in *.
  - unfold new_stack in E. injection E as <-. cbn. split.
    + eapply copy_ok_kept; [exact C|..]; cbn; auto.
      * intros x Hx. unfold upd. destruct (Nat.eq_dec x (fresh (c_heap s))); [lia|auto].
      * intros x ob g d Hx. unfold upd. destruct (Nat.eq_dec x (fresh (c_heap s))) as [->|].
        -- intros [= <-]. cbn. discriminate.
        -- intros Hm. apply Fr in Hm. lia.
    + intros x ob' Hx _. cbn. unfold upd. destruct (Nat.eq_dec x (fresh (c_heap s))); [lia|eauto].
  - destruct (new_ref (c_heap s)) as [[h' r]|] eqn:En; [|discriminate]. injection E as <-. cbn.
    destruct (new_gc_copy [] _ _ _ _ _ _ L C En) as [M1 [C1 _]]. split; [exact C1|apply mono_kept; auto].
  - destruct (new_native (c_heap s) data) as [[h' r]|] eqn:En; [|discriminate]. injection E as <-. cbn.
    destruct (new_gc_copy [] _ _ _ _ _ _ L C En) as [M1 [C1 _]]. split; [exact C1|apply mono_kept; auto].
  - unfold assign_ref in E. destruct (realloc (c_heap s) v) as [[h1 v1]|] eqn:Er; [|discriminate].
    injection E as <-. cbn. destruct A as [Ar Av].
    destruct (gc_realloc_copy _ _ _ _ _ _ L C Er) as [L1 [M1 [C1 T1]]].
    destruct (realloc_inv _ _ _ _ _ v I (le_n _) (usable_gv _ _ I Av)) as [h1' [v1' [Er' [I1 [E1 _]]]]].
    rewrite Er in Er'. injection Er' as <- <-.
    destruct (i_pend _ _ _ _ I1 (top (c_heap s)) r) as [Hal _]; [rewrite (e_top _ _ _ E1); auto|auto|].
    split.
    + apply copy_ok_set_field; auto.
      * exact (ref_not_copy _ _ _ r h1 I C M1 Ar).
      * eapply i_gcobj; eauto.
    + intros x ob' Hx Hn Hm. assert (x <> r) by congruence.
      unfold set_field in Hm. destruct (mem h1 r); [|eapply mono_kept; eauto].
      cbn in Hm. unfold upd in Hm. destruct (Nat.eq_dec x r); [congruence|]. eapply mono_kept; eauto.
  - destruct (mem (c_heap s) o); [|discriminate].
    destruct (nth_error _ i) as [[| | |]|]; try discriminate; injection E as <-; cbn;
      (split; [exact C|intros x ob1 _ _ Hm1; exists ob1; split; [exact Hm1|auto]]).
  - destruct m; injection E as <-; cbn; (split; [exact C|intros x ob1 _ _ Hm1; exists ob1; split; [exact Hm1|auto]]).
  - destruct (pop fix_ (c_heap s) v) as [[h' v']|] eqn:Ep; [|discriminate]. injection E as <-. cbn [c_heap add_val] in *.
    destruct A as [Av At].
    destruct (merges (frames (c_heap s) (top (c_heap s)))) as [|n] eqn:Em.
    + destruct (top (c_heap s)) as [|c] eqn:Et; [destruct At; congruence|].
      rewrite (pop_eq _ _ _ c Et) in Ep by (rewrite Et; exact Em).
      destruct (realloc (c_heap s) v) as [[h1 v1]|] eqn:Er; [|discriminate]. injection Ep as <- <-.
      destruct (gc_realloc_copy _ _ _ _ _ _ L C Er) as [L1 [M1 [C1 T1]]].
      destruct (realloc_inv _ _ _ _ _ v I (le_n _) (usable_gv _ _ I Av)) as [h1' [v1' [Er' [I1 [E1 _]]]]].
      rewrite Er in Er'. injection Er' as <- <-. pose proof (e_top _ _ _ E1) as Ht.
      rewrite <- Ht. assert (Htc : S c = top h1) by congruence.
      destruct (pop_tail_shape fix_ h1 v1 (top h1) c Htc (inv_lists_ok _ _ _ _ I1)) as [_ [Mm [Ff _]]].
      split; [exact (copy_ok_kill _ _ _ _ _ I1 C1 eq_refl Mm Ff)|]. exact (Kill _ _ M1 Mm).
    + unfold pop in Ep. rewrite Em in Ep. injection Ep as <- <-.
      split; [exact C|intros x ob1 _ _ Hm1; exists ob1; split; [exact Hm1|auto]].
  - destruct (compact (c_heap s) m vs) as [[h' vs']|] eqn:Ep; [|discriminate]. destruct A as [Av At].
    destruct m; injection E as <-; cbn [c_heap] in *.
    + injection Ep as <- <-. split; [exact C|intros x ob1 _ _ Hm1; exists ob1; split; [exact Hm1|auto]].
    + destruct (merges (frames (c_heap s) (top (c_heap s)))) as [|n] eqn:Em.
      * destruct (top (c_heap s)) as [|c] eqn:Et; [destruct At as [?|[?|?]]; congruence|].
        rewrite (compact_eq _ _ c Et) in Ep by (rewrite Et; exact Em).
        destruct (realloc_list (c_heap s) vs) as [[h1 v1]|] eqn:Er; [|discriminate]. injection Ep as <- <-.
        destruct (realloc_list_copy _ _ _ _ _ L C Er) as [L1 [M1 [C1 T1]]].
        destruct (realloc_list_inv vs _ _ _ _ (top (c_heap s)) I (le_n _)) as [h1' [v1' [Er' [I1 [E1 _]]]]].
        { intros u Hu. apply usable_gv; auto. }
        rewrite Er in Er'. injection Er' as <- <-. pose proof (e_top _ _ _ E1) as Ht. rewrite <- Ht.
        destruct (compact_tail_shape h1 v1 (top h1) (inv_lists_ok _ _ _ _ I1)) as [_ [Mm [Ff _]]].
        split; [exact (copy_ok_kill _ _ _ _ _ I1 C1 eq_refl Mm Ff)|]. exact (Kill _ _ M1 Mm).
      * unfold compact in Ep. rewrite Em in Ep. injection Ep as <- <-.
        split; [exact C|intros x ob1 _ _ Hm1; exists ob1; split; [exact Hm1|auto]].
Qed.

Lemma reached_minv fix_ C s : safe_mode fix_ C -> reached fix_ C s -> minv s.
Proof.
  intros S H. induction H as [|s o s' H IH A Ho E].
  - split; [apply new_heap_inv; reflexivity|]. split; [apply li_new_heap|].
    intros x ob g d Hx. discriminate.
  - exact (proj1 (exec_minv _ _ _ _ IH A (sm_case _ _ _ _ S Ho) E)).
Qed.

Lemma sinv_follow s d v x : sinv s -> d <= top (c_heap s) -> In v (c_vals s d) ->
  follows (mem (c_heap s)) v x -> exists ob, mem (c_heap s) x = Some ob /\ ~ In VUninit (ofields ob).
Proof. intros I. apply sinv_intact. exact I. Qed.

(** Values still in use after a call, other than through an assigned reference. *)
Lemma kept_same s s' r d v : sinv s -> objs_kept r (c_heap s) (c_heap s') ->
  gv (c_heap s) d v ->
  (forall x, follows (mem (c_heap s')) v x -> exists ob, mem (c_heap s') x = Some ob /\ ~ In VUninit (ofields ob)) ->
  (forall x, r = Some x -> ~ follows (mem (c_heap s)) v x) ->
  same_value (mem (c_heap s)) v (mem (c_heap s')) v.
Proof.
  intros I K G Fol Hr. exists (fun o o' => o = o' /\ follows (mem (c_heap s)) v o /\ follows (mem (c_heap s')) v o).
  split.
  - intros o o' [<- [F F']].
    assert (Go : gv (c_heap s) d (VObj o)) by (eapply follows_gv; eauto).
    destruct Go as [Hn _]. destruct (mem (c_heap s) o) as [ob|] eqn:Eo; [|destruct Hn; congruence].
    pose proof (i_fresh _ _ _ _ I _ _ Eo) as Hof.
    destruct (Fol _ F') as [ob' [Eo' Hu]].
    destruct (K o ob' Hof) as [ob2 [E2 [K2 F2]]]; auto.
    { intros ->. eapply Hr; eauto. }
    rewrite Eo in E2. injection E2 as <-.
    exists ob, ob'. split; [reflexivity|]. split; [exact Eo'|]. split; [exact K2|]. split; [|auto].
    rewrite <- F2 in *.
    assert (Gf : forall a, In a (ofields ob) -> vrel (fun o o' => o = o' /\ follows (mem (c_heap s)) v o /\ follows (mem (c_heap s')) v o) a a).
    { intros a Ha. destruct a as [| |y|]; cbn; auto.
      - split; [reflexivity|]. split; [eapply follows_field; eauto|].
        eapply follows_field; [exact F'|exact Eo'|rewrite <- F2; exact Ha]. }
    clear -Gf. induction (ofields ob) as [|a l IH]; constructor; [apply Gf; cbn; auto|].
    apply IH. intros b Hb. apply Gf; cbn; auto.
  - destruct v as [| |o|]; cbn; auto. split; [reflexivity|]. split; constructor.
Qed.

(** ** C11: the value a frame returns to its caller means the same as in the frame. *)
Theorem pop_preserves_meaning_partial fix_ C s v s' : safe_mode fix_ C -> reached fix_ C s ->
  allowed s (Pop v) -> C s (Pop v) -> exec fix_ s (Pop v) = Some s' ->
  exists v', c_vals s' (top (c_heap s')) = v' :: c_vals s (top (c_heap s')) /\
    same_value (mem (c_heap s)) v (mem (c_heap s')) v'.
Proof.
  intros S H A Hc E. pose proof (reached_minv _ _ _ S H) as M0.
  destruct (exec_minv _ _ _ _ M0 A (sm_case _ _ _ _ S Hc) E) as [[I' _] Kp].
  destruct M0 as [I [L Co]]. cbn [exec allowed] in *. destruct A as [Av At].
  destruct (pop fix_ (c_heap s) v) as [[h' v']|] eqn:Ep; [|discriminate]. injection E as <-.
  exists v'. split.
  { unfold add_val; cbn. unfold upd. destruct (Nat.eq_dec _ _); congruence. }
  assert (Fol : forall x, follows (mem h') v' x -> exists ob, mem h' x = Some ob /\ ~ In VUninit (ofields ob)).
  { intros x Hx. eapply (sinv_follow _ (top h') v' x I'); auto. unfold add_val; cbn. unfold upd.
    destruct (Nat.eq_dec _ _); [left; reflexivity|congruence]. }
  assert (G : gv (c_heap s) (top (c_heap s)) v) by (apply usable_gv; auto).
  destruct (merges (frames (c_heap s) (top (c_heap s)))) as [|n] eqn:Em.
  - cbn [c_heap add_val]. destruct (top (c_heap s)) as [|c] eqn:Et; [destruct At; congruence|].
    rewrite (pop_eq _ _ _ c Et) in Ep by (rewrite Et; exact Em).
    destruct (realloc (c_heap s) v) as [[h1 v1]|] eqn:Er; [|discriminate]. injection Ep as <- <-.
    destruct (gc_realloc_copy _ _ _ _ _ _ L Co Er) as [L1 [M1 [C1 T1]]].
    destruct (realloc_inv _ _ _ _ _ v I (le_n _) (usable_gv _ _ I Av)) as [h1' [v1' [Er' [I1 [E1 _]]]]].
    rewrite Er in Er'. injection Er' as <- <-. pose proof (e_top _ _ _ E1) as Ht.
    rewrite <- Ht in *. assert (Htc : Datatypes.S c = top h1) by congruence.
    destruct (pop_tail_shape fix_ h1 v1 (top h1) c Htc (inv_lists_ok _ _ _ _ I1)) as [_ [Mm [Ff _]]].
    eapply (tr_same I M1 C1 (fun _ => False)) with (d := top h1); auto.
    + intros x [].
    + intros x ob' _ Hx. rewrite Mm in Hx. apply mem_kill in Hx. eauto.
    + rewrite <- Htc. exact G.
  - unfold pop in Ep. rewrite Em in Ep. injection Ep as <- <-.
    apply (kept_same s _ None (top (c_heap s))); auto. intros x; discriminate.
Qed.

(** The values saved across a tail call mean the same afterwards. *)
Theorem compact_preserves_meaning_partial fix_ C s vs s' : safe_mode fix_ C -> reached fix_ C s ->
  allowed s (Compact false vs) -> C s (Compact false vs) -> exec fix_ s (Compact false vs) = Some s' ->
  Forall2 (fun v v' => same_value (mem (c_heap s)) v (mem (c_heap s')) v')
    vs (c_vals s' (top (c_heap s'))).
Proof.
  intros S H A Hc E. pose proof (reached_minv _ _ _ S H) as M0.
  destruct (exec_minv _ _ _ _ M0 A (sm_case _ _ _ _ S Hc) E) as [[I' _] Kp].
  destruct M0 as [I [L Co]]. cbn [exec allowed] in *. destruct A as [Av At].
  destruct (compact (c_heap s) false vs) as [[h' vs']|] eqn:Ep; [|discriminate]. injection E as <-.
  cbn [c_heap c_vals] in *.
  assert (Ev : upd (c_vals s) (top h') vs' (top h') = vs').
  { unfold upd. destruct (Nat.eq_dec _ _); congruence. }
  rewrite Ev.
  assert (Fol : forall v' x, In v' vs' -> follows (mem h') v' x -> exists ob, mem h' x = Some ob /\ ~ In VUninit (ofields ob)).
  { intros v' x Hv Hx. eapply (sinv_follow _ (top h') v' x I'); auto. cbn [c_vals]. rewrite Ev. exact Hv. }
  assert (G : forall v, In v vs -> gv (c_heap s) (top (c_heap s)) v).
  { intros v Hv. apply usable_gv; auto. }
  destruct (merges (frames (c_heap s) (top (c_heap s)))) as [|n] eqn:Em.
  - destruct (top (c_heap s)) as [|c] eqn:Et; [destruct At as [?|[?|?]]; congruence|].
    rewrite (compact_eq _ _ c Et) in Ep by (rewrite Et; exact Em).
    destruct (realloc_list (c_heap s) vs) as [[h1 v1]|] eqn:Er; [|discriminate]. injection Ep as <- <-.
    destruct (realloc_list_copy _ _ _ _ _ L Co Er) as [L1 [M1 [C1 T1]]].
    destruct (realloc_list_inv vs _ _ _ _ (top (c_heap s)) I (le_n _)) as [h1' [v1' [Er' [I1 [E1 _]]]]].
    { intros u Hu. apply usable_gv; auto. }
    rewrite Er in Er'. injection Er' as <- <-. pose proof (e_top _ _ _ E1) as Ht. rewrite <- Ht in *.
    destruct (compact_tail_shape h1 v1 (top h1) (inv_lists_ok _ _ _ _ I1)) as [_ [Mm [Ff _]]].
    set (h' := compact_tail h1 v1 (top h1)) in *. clearbody h'. clear Ev Er.
    assert (T : forall v v', tr h1 v v' -> In v vs -> In v' v1 -> same_value (mem (c_heap s)) v (mem h') v').
    { intros v v' Hvv Hv Hv'. eapply (tr_same I M1 C1 (fun _ => False)) with (d := top h1); auto.
      - intros x [].
      - intros x ob' _ Hx. rewrite Mm in Hx. apply mem_kill in Hx. eauto.
      - replace (top h1) with (Datatypes.S c) by congruence. auto.
      - intros x Hx. eapply Fol; eauto. }
    clear -T T1. induction T1 as [|a b l l' Hab T1 IH]; constructor; [apply T; cbn; auto|].
    apply IH. intros v v' H1 H2 H3. apply T; cbn; auto.
  - unfold compact in Ep. rewrite Em in Ep. assert (vs' = vs) by (injection Ep; auto). subst vs'. clear Ep.
    assert (T : forall v, In v vs -> same_value (mem (c_heap s)) v (mem h') v).
    { intros v Hv. apply (kept_same s (mk_cst h' (c_vals s) (c_refs s)) None (top (c_heap s))); cbn; auto.
      - intros x Hx. eapply Fol; eauto.
      - intros x; discriminate. }
    clear -T. induction vs as [|a l IH]; constructor; [apply T; cbn; auto|]. apply IH. intros v Hv. apply T; cbn; auto.
Qed.

(** Every other value stays what it was, whatever is called (allocations with the
    collections they trigger, reads, pushes, returns of younger frames, ...); an assignment
    changes nothing but the assigned reference. *)
Theorem calls_preserve_values_partial fix_ C s o s' d v : safe_mode fix_ C -> reached fix_ C s ->
  allowed s o -> C s o -> exec fix_ s o = Some s' ->
  d <= top (c_heap s) -> d <= top (c_heap s') -> In v (c_vals s d) -> In v (c_vals s' d) ->
  (forall r w, o = Assign r w -> ~ follows (mem (c_heap s)) v r) ->
  same_value (mem (c_heap s)) v (mem (c_heap s')) v.
Proof.
  intros S H A Hc E Hd Hd' Hv Hv' Ha. pose proof (reached_minv _ _ _ S H) as M0.
  destruct (exec_minv _ _ _ _ M0 A (sm_case _ _ _ _ S Hc) E) as [[I' _] Kp].
  destruct M0 as [I _]. apply (kept_same s s' (assigned o) d); auto.
  - eapply root_gv; eauto.
  - intros x Hx. eapply (sinv_follow _ d v x I'); eauto.
  - intros x Hx. destruct o; try discriminate. injection Hx as ->. eapply Ha. reflexivity.
Qed.

(** What is stored in a reference means the same as the value assigned, where the value
    may lead back to the reference itself (recursive definitions): the result is what one
    gets by putting the value into the reference and copying nothing. *)
Theorem assign_stores_value_partial fix_ C s r v s' : safe_mode fix_ C -> reached fix_ C s ->
  allowed s (Assign r v) -> C s (Assign r v) -> exec fix_ s (Assign r v) = Some s' ->
  In (VObj r) (c_vals s (top (c_heap s))) ->
  forall rl, same_value (upd (mem (c_heap s)) r (Some (mk_obj KRef [v] rl))) (VObj r) (mem (c_heap s')) (VObj r).
Proof.
  intros S H A Hc E Hrv rl. pose proof (reached_minv _ _ _ S H) as M0.
  destruct (exec_minv _ _ _ _ M0 A (sm_case _ _ _ _ S Hc) E) as [[I' _] Kp].
  destruct M0 as [I [L Co]]. cbn [exec allowed] in *. destruct A as [Ar Av].
  unfold assign_ref in E. destruct (realloc (c_heap s) v) as [[h1 v1]|] eqn:Er; [|discriminate].
  injection E as <-. cbn [c_heap] in *.
  destruct (gc_realloc_copy _ _ _ _ _ _ L Co Er) as [L1 [M1 [C1 T1]]].
  destruct (realloc_inv _ _ _ _ _ v I (le_n _) (usable_gv _ _ I Av)) as [h1' [v1' [Er' [I1 [E1 _]]]]].
  rewrite Er in Er'. injection Er' as <- <-. pose proof (e_top _ _ _ E1) as Ht.
  destruct (i_pend _ _ _ _ I1 (top (c_heap s)) r) as [Hal [rb [w [Hrm [Hrk Hrf]]]]]; [rewrite Ht; auto|auto|].
  assert (Hg : gcobj (mem h1) r) by (eapply i_gcobj; eauto).
  assert (Hns : forall d, ~ stackobj (mem h1) r d).
  { intros d [b [p [Hb Hl]]]. destruct Hg as [g [b' [Hb' Hl']]]. congruence. }
  assert (Hmr : mem (set_field h1 r 0 v1) r = Some (mk_obj (okind rb) [v1] (oloc rb))).
  { unfold set_field. rewrite Hrm, Hrf. cbn. unfold upd. destruct (Nat.eq_dec r r); congruence. }
  assert (Gr : gv (c_heap s) (top (c_heap s)) (VObj r)) by (eapply root_gv; eauto).
  eapply (tr_same I M1 C1 (fun x => x = r)) with (d := top (c_heap s)); auto.
  - intros x y ob d ->. exact (ref_not_copy _ _ _ r h1 I Co M1 Ar y ob d).
  - intros x d ->. auto.
  - intros x ->. exists (mk_obj KRef [v] rl), (mk_obj (okind rb) [v1] (oloc rb)).
    split; [unfold upd; destruct (Nat.eq_dec r r); congruence|]. split; [exact Hmr|]. split; [auto|].
    split; [constructor; [exact T1|constructor]|].
    intros e [<-|[]]. apply usable_gv; auto.
  - intros x Hx. unfold upd. destruct (Nat.eq_dec x r); congruence.
  - intros x ob' Hx Hm. unfold set_field in Hm. rewrite Hrm in Hm. cbn in Hm. unfold upd in Hm.
    destruct (Nat.eq_dec x r); [congruence|]. eauto.
  - intros x. destruct (Nat.eq_dec x r); auto.
  - right. split; [eapply i_fresh; eauto|]. auto.
  - intros x Hx. eapply (sinv_follow _ (top (c_heap s)) (VObj r) x I'); cbn [c_heap c_vals]; auto.
    unfold set_field. rewrite Hrm. cbn. lia.
Qed.

(** Both kinds of history for which this holds. *)
Corollary safe_repaired : safe_mode true any.
Proof. left; reflexivity. Qed.
Corollary safe_owned : safe_mode false pop_owned.
Proof. right. auto. Qed.

(** Non-vacuity: on the code as it is, a history that ends by returning a structure with a
    reference cycle, and one that ends by tying such a cycle ([r := struct holding r]). *)
Definition tie_history : list op :=
  [Push false []; NewNative 1; NewRef; NewObj KStruct [VObj 1; VObj 0]].

Example assign_applies : exists s s', reached false pop_owned s /\
  allowed s (Assign 1 (VObj 2)) /\ pop_owned s (Assign 1 (VObj 2)) /\
  exec false s (Assign 1 (VObj 2)) = Some s' /\ In (VObj 1) (c_vals s (top (c_heap s))) /\
  follows (mem (c_heap s)) (VObj 2) 1.
Proof.
  destruct (pop_ownedsb_ok (tie_history ++ [Assign 1 (VObj 2)]) init) as [s' [E _]];
    [constructor|vm_compute; reflexivity|].
  destruct (pop_ownedsb_ok tie_history init) as [s [E1 R]]; [constructor|vm_compute; reflexivity|].
  assert (Cut : forall os o t, execs false t (os ++ [o]) =
            match execs false t os with Some u => exec false u o | None => None end).
  { induction os as [|a os IH]; intros o t; cbn [execs app].
    - destruct (exec false t o); reflexivity.
    - destruct (exec false t a); auto. }
  rewrite Cut, E1 in E.
  assert (V : option_map (fun s => (allowedb s (Assign 1 (VObj 2)),
                existsb (val_eqb (VObj 1)) (c_vals s (top (c_heap s))),
                option_map ofields (mem (c_heap s) 2))) (execs false init tie_history) =
              Some (true, true, Some [VObj 1; VObj 0])) by (vm_compute; reflexivity).
  rewrite E1 in V. cbn [option_map] in V. injection V as V1 V2 V3.
  exists s, s'. split; [exact R|]. split; [apply allowedb_ok; exact V1|]. split; [exact Logic.I|]. split; [exact E|].
  split.
  - apply existsb_exists in V2. destruct V2 as [u [Hu Eu]]. unfold val_eqb in Eu.
    destruct (value_eq_dec (VObj 1) u) as [<-|]; [exact Hu|discriminate].
  - destruct (mem (c_heap s) 2) as [ob|] eqn:E2; [|discriminate]. injection V3 as V3.
    eapply follows_field; [apply follows_here|exact E2|rewrite V3; cbn; auto].
Qed.

Example pop_applies : exists s s', reached false pop_owned s /\
  allowed s (Pop (VObj 2)) /\ pop_owned s (Pop (VObj 2)) /\ exec false s (Pop (VObj 2)) = Some s'.
Proof.
  destruct (pop_ownedsb_ok (tie_history ++ [Assign 1 (VObj 2)] ++ [Pop (VObj 2)]) init) as [s' [E _]];
    [constructor|vm_compute; reflexivity|].
  destruct (pop_ownedsb_ok (tie_history ++ [Assign 1 (VObj 2)]) init) as [s [E1 R]]; [constructor|vm_compute; reflexivity|].
  assert (Cut : forall os o t, execs false t (os ++ [o]) =
            match execs false t os with Some u => exec false u o | None => None end).
  { induction os as [|a os IH]; intros o t; cbn [execs app].
    - destruct (exec false t o); reflexivity.
    - destruct (exec false t a); auto. }
  rewrite app_assoc, Cut, E1 in E.
  assert (V : option_map (fun s => (allowedb s (Pop (VObj 2)), pop_ownedb s (Pop (VObj 2))))
                (execs false init (tie_history ++ [Assign 1 (VObj 2)])) = Some (true, true)) by (vm_compute; reflexivity).
  rewrite E1 in V. cbn [option_map] in V. injection V as V1 V2.
  exists s, s'. split; [exact R|]. split; [apply allowedb_ok; exact V1|]. split; [apply pop_ownedb_ok; exact V2|exact E].
Qed.
