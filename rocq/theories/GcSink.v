(** * Popping and compacting frames. *)

From Coq Require Import Arith List Bool Lia.
From Verif Require Import GcModel GcInv GcStep GcAlloc GcFrames.
Import ListNotations.

(** ** The stack memory of a frame is released *)

Section kill.
  Context {h : heap} {R : nat -> list value} {P : nat -> list nat}.
  Context (I : Inv h R P []) (vs : list value)
          (Hvs : forall v, In v vs -> In v (R (top h)) /\ gcval (mem h) v).
  Let d := top h.
  Let h' := set_mem h (kill_stack (mem h) d).

  Lemma ki_mem x ob : mem h' x = Some ob -> mem h x = Some ob.
  Proof.
    cbn. unfold kill_stack. destruct (mem h x) as [a|]; [|discriminate].
    destruct (oloc a); [|auto]. destruct (Nat.eq_dec _ _); [discriminate|auto].
  Qed.
  Lemma ki_mem' x ob : mem h x = Some ob -> ~ stackobj (mem h) x d -> mem h' x = Some ob.
  Proof.
    intros H Hn. cbn. unfold kill_stack. rewrite H. destruct (oloc ob) as [p e|] eqn:E; [|auto].
    destruct (Nat.eq_dec e d) as [->|]; auto. exfalso. apply Hn. exists ob, p. auto.
  Qed.
  Lemma ki_no x : ~ stackobj (mem h') x d.
  Proof.
    intros [ob [p [H1 H2]]]. cbn in H1. unfold kill_stack in H1.
    destruct (mem h x) as [a|] eqn:Ea; [|discriminate].
    destruct (oloc a) as [q e|] eqn:E.
    - destruct (Nat.eq_dec e d); [discriminate|]. injection H1 as <-. congruence.
    - injection H1 as <-. congruence.
  Qed.
  Lemma ki_genx x g : genx (mem h') x g <-> genx (mem h) x g.
  Proof.
    split; intros [ob [H1 H2]].
    - exists ob. split; auto. apply ki_mem; auto.
    - exists ob. split; auto. apply ki_mem'; auto. intros Hs.
      apply (genx_stack (mem h) x g d); auto. exists ob; auto.
  Qed.
  Lemma ki_gcobj x : gcobj (mem h') x <-> gcobj (mem h) x.
  Proof. unfold gcobj. split; intros [g H]; exists g; apply ki_genx; auto. Qed.
  Lemma ki_stackobj x e : stackobj (mem h') x e <-> stackobj (mem h) x e /\ e <> d.
  Proof.
    split.
    - intros H. split; [|intros ->; eapply ki_no; eauto].
      destruct H as [ob [p [H1 H2]]]. exists ob, p. split; auto. apply ki_mem; auto.
    - intros [[ob [p [H1 H2]]] Hn]. exists ob, p. split; auto. apply ki_mem'; auto.
      intros Hs. apply Hn. eapply stackobj_fun; eauto. exists ob, p; auto.
  Qed.
  Lemma ki_edge o x : edge (mem h') o x -> edge (mem h) o x.
  Proof. intros [ob [H1 H2]]. exists ob. split; auto. apply ki_mem; auto. Qed.
  Lemma ki_edge' o x : gcobj (mem h) o -> edge (mem h) o x -> edge (mem h') o x.
  Proof.
    intros [g Hg] [ob [H1 H2]]. exists ob. split; auto. apply ki_mem'; auto.
    intros Hs. eapply genx_stack; eauto.
  Qed.
  Lemma ki_inl l x : inl h' l x <-> inl h l x.
  Proof. reflexivity. Qed.
  Lemma ki_nf x : nf h' x <-> nf h x /\ ~ stackobj (mem h) x d.
  Proof.
    unfold nf. split.
    - intros [H1 H2]. destruct (mem h' x) as [ob|] eqn:E; [|congruence].
      split; [split; auto; rewrite (ki_mem _ _ E); congruence|].
      intros Hs. apply (ki_no x). destruct Hs as [ob' [p [H3 H4]]].
      exists ob, p. split; auto. pose proof (ki_mem _ _ E). congruence.
    - intros [[H1 H2] H3]. split; auto. destruct (mem h x) as [ob|] eqn:E; [|congruence].
      rewrite (ki_mem' _ _ E H3). discriminate.
  Qed.
  Lemma ki_rch (M U : nat -> Prop) x : (forall y, M y \/ U y -> gcobj (mem h) y) ->
    (rch (mem h') M U x <-> rch (mem h) M U x).
  Proof.
    intros Hg. split; apply rch_mono; auto.
    - intros o y _. apply ki_edge.
    - intros o y Hr. apply ki_edge'. apply Hg. eapply rch_in; eauto.
  Qed.
  Lemma ki_rchf e x : rchf h' e x <-> rchf h e x.
  Proof.
    unfold rchf. apply ki_rch. intros y [[Hy|[Hi [Hf Hs]]]|[Hy|[_ [_ [Hy|Hy]]]]];
      try (eapply i_gcobj; eauto; fail).
    destruct (i_int _ _ _ _ I Hi) as [_ [H _]]. destruct (H _ Hs) as [Hx|[Hx|Hx]]; eapply i_gcobj; eauto.
  Qed.
  Lemma ki_gpr x : gpr h' x <-> gpr h x.
  Proof. unfold gpr. apply ki_rch. intros y [Hy|Hy]; eapply i_gcobj; eauto. Qed.
  Lemma ki_Cf e x : Cf h' e x <-> Cf h e x.
  Proof. unfold Cf. rewrite ki_rchf. reflexivity. Qed.
  Lemma ki_Cg x : Cg h' x <-> Cg h x.
  Proof. unfold Cg. rewrite ki_gpr. reflexivity. Qed.
  Lemma ki_fr x e : fr h' x e <-> fr h x e /\ ~ stackobj (mem h) x d.
  Proof.
    unfold fr. rewrite ki_stackobj. cbn [gc h' set_mem]. rewrite !ki_inl.
    assert (Hn : forall l, inl h l x -> ~ stackobj (mem h) x d).
    { intros l Hl Hs. eapply (gc_not_stack I); eauto. }
    split.
    - intros [H|[H|[H|[[[H|H] He]|[H He]]]]]; try (split; [tauto|eauto]; fail).
      split; [tauto|]. intros Hs. apply He. eapply stackobj_fun; eauto.
    - intros [[H|[H|[H|[H|H]]]] Hs]; try tauto. right; right; right; right. split; auto.
      intros ->. auto.
  Qed.
  Lemma ki_frle x e : ~ stackobj (mem h) x d -> frle h x e -> frle h' x e.
  Proof. intros Hn [e' [H1 H2]]. exists e'. split; auto. apply ki_fr. auto. Qed.

  Lemma ki_below x e : frle h x e -> e < d -> ~ stackobj (mem h) x d.
  Proof.
    intros Hf He Hs. assert (d <= e); [|lia].
    eapply (frle_fr I); eauto. right; right; right; right. auto.
  Qed.
  Lemma ki_gv e v : gv h e v -> (forall x, v = VObj x -> ~ stackobj (mem h) x d) -> gv h' e v.
  Proof.
    intros Hv Hn. destruct v as [| |x|]; auto. destruct Hv as [H1 [H2 [H3 H4]]].
    specialize (Hn _ eq_refl).
    split; [apply ki_nf; auto|]. split; [apply ki_frle; auto|]. split.
    - intros F HF. apply ki_Cf. auto.
    - apply ki_Cg. auto.
  Qed.

  Lemma kill_inv : Inv h' (upd R d vs) P [].
  Proof.
    assert (Hroot : forall e x, e <= top h -> In (VObj x) (upd R d vs e) ->
              In (VObj x) (R e) /\ ~ stackobj (mem h) x d).
    { intros e x He Hx. unfold upd in Hx. destruct (Nat.eq_dec e d) as [->|Hn].
      - destruct (Hvs _ Hx) as [H1 [g Hg]]. split; auto. intros Hs. eapply genx_stack; eauto.
      - split; auto. eapply ki_below; [eapply i_root; eauto|]. unfold d in *. lia. }
    constructor; [constructor|..]; cbn [top h' set_mem].
    - intros l l' x. rewrite !ki_inl. apply (i_uniq _ _ _ _ I).
    - apply (i_nodup _ _ _ _ I).
    - apply (i_above _ _ _ _ I).
    - intros l x. rewrite ki_inl, ki_gcobj. apply (i_gcobj _ _ _ _ I).
    - intros x. rewrite ki_gcobj. apply (i_listed _ _ _ _ I).
    - intros x ob Hx. apply (i_fresh _ _ _ _ I x ob). apply ki_mem. exact Hx.
    - intros x ob g e H1 H2. apply ki_mem in H1. destruct (i_stack _ _ _ _ I _ _ _ _ H1 H2) as [H3 [H4 H5]].
      split; [exact H3|]. split; [exact H4|]. intros y e' Hy Hs. apply ki_stackobj in Hs. eapply H5; eauto. apply Hs.
    - intros x ob Hx Hm. rewrite ki_nf in Hx. apply ki_mem in Hm. apply (i_uninit _ _ _ _ I x); auto. apply Hx.
    - intros b e [].
    - intros o x Ho He. rewrite ki_nf in Ho. destruct Ho as [Ho Hso]. apply ki_edge in He.
      destruct (i_edge _ _ _ _ I o x Ho He) as [H1 H2].
      assert (Hsx : ~ stackobj (mem h) x d).
      { destruct (mem h o) as [ob|] eqn:Eo; [|destruct Ho; congruence].
        destruct (oloc ob) as [p e|g] eqn:El.
        - assert (Hse : stackobj (mem h) o e) by (exists ob, p; auto).
          eapply ki_below; [apply H2; right; right; right; right; eauto|].
          destruct (i_stack _ _ _ _ I _ _ _ _ Eo El) as [H3 _].
          assert (e <> d) by (intros ->; auto). unfold d in *. lia.
        - assert (Hgo : gcobj (mem h) o) by (exists g, ob; auto).
          assert (Hgx : gcobj (mem h) x) by (apply (i_gcedge _ _ _ _ I o x); auto).
          destruct Hgx as [g' Hg']. intros Hs. eapply genx_stack; eauto. }
      rewrite ki_nf. split; auto. intros e Hfe. rewrite ki_fr in Hfe. apply ki_frle; auto. apply H2. apply Hfe.
    - intros o x Ho. rewrite ki_nf in Ho. rewrite !ki_gcobj. intros Hg He. apply ki_edge in He.
      apply (i_gcedge _ _ _ _ I o x); auto. apply Ho.
    - intros o ob g e H1 H2. apply ki_mem in H1. rewrite ki_gcobj. eapply i_gcptr; eauto.
    - intros e x He Hx. destruct (Hroot _ _ He Hx) as [H1 H2].
      destruct (i_root _ _ _ _ I _ _ He H1) as [H3 H4].
      split; [apply ki_nf; auto|apply ki_frle; auto].
    - intros e He. unfold upd. destruct (Nat.eq_dec e d) as [->|]; [|eapply i_rootu; eauto].
      intros Hx. destruct (Hvs _ Hx) as [_ H]. exact H.
    - intros e r He Hr. destruct (i_pend _ _ _ _ I _ _ He Hr) as [H1 [ob [v [H2 H3]]]].
      split; [exact H1|]. exists ob, v. split; [|exact H3]. apply ki_mem'; auto.
      intros Hs. eapply (gc_not_stack I); eauto.
    - apply (i_gens _ _ _ _ I).
    - apply (i_chain _ _ _ _ I).
    - intros e x g. rewrite ki_inl, ki_genx. apply (i_all _ _ _ _ I).
    - intros e x g. rewrite ki_rchf, ki_genx. apply (i_rch _ _ _ _ I).
    - intros x g. rewrite ki_gpr, ki_genx. apply (i_gpr _ _ _ _ I).
    - intros o x. rewrite ki_gpr. intros Hp He. apply ki_edge in He.
      destruct (i_gout _ _ _ _ I o x Hp He) as [H|H]; [left; exact H|right].
      intros g. rewrite ki_genx. apply H.
    - intros x g. rewrite ki_rchf, ki_genx. apply (i_g3 _ _ _ _ I).
    - intros e o x He. rewrite ki_nf, !ki_Cf. intros Ho HC Hx. apply ki_edge in Hx.
      apply (i_T _ _ _ _ I e o x); auto. apply Ho.
    - intros e e' x He He' Hx. rewrite ki_Cf. destruct (Hroot _ _ He' Hx). eapply i_Troot; eauto.
    - intros o x. rewrite ki_nf, !ki_Cg. intros Ho HC Hx. apply ki_edge in Hx.
      apply (i_Tg _ _ _ _ I o x); auto. apply Ho.
    - intros e x He Hx. rewrite ki_Cg. destruct (Hroot _ _ He Hx). eapply i_Tgroot; eauto.
    - apply (i_gf _ _ _ _ I).
    - apply (i_ggen _ _ _ _ I).
    - apply (i_gmax _ _ _ _ I).
    - apply (i_gmin _ _ _ _ I).
    - apply (i_nint _ _ _ _ I).
    - apply (i_int _ _ _ _ I).
    - apply (i_next _ _ _ _ I).
    - apply (i_work _ _ _ _ I).
  Qed.
End kill.

(** ** The contents of the top frame move to the frame below, or to a new generation *)

Section sink.
  Context {h h' : heap} {R R' : nat -> list value} {P P' : nat -> list nat}.
  Context (I : Inv h R P []) (d c : nat) (Hd : d = top h) (Hcd : c = d \/ S c = d).
  Context (Hns : forall x, ~ stackobj (mem h) x d).
  Context (vs : list value) (Hvs : forall x, In (VObj x) vs -> In (VObj x) (R d)) (Hvu : ~ In VUninit vs).
  Let K x := In (VObj x) vs /\ fr h x d.
  Let S x := g_frame (gc h) = d /\ In (VObj x) vs /\ ingc h x.
  Context (Htop : top h' = c) (Hmem : mem h' = mem h) (Hfresh : fresh h' = fresh h).
  Context (Hok : lists_ok h').
  Context (LU : forall e x, inl h' (Unm e) x <->
            (e < c /\ inl h (Unm e) x) \/
            (e = c /\ (inl h (Unm c) x \/ inl h (Unm d) x \/ inl h (Mrk d) x \/ inl h (All d) x) /\ ~ K x)).
  Context (LM : forall e x, inl h' (Mrk e) x <->
            (e <= c /\ e <> d /\ inl h (Mrk e) x) \/ (e = c /\ K x /\ ~ S x)).
  Context (LA : forall e x, inl h' (All e) x <-> e <= c /\ e <> d /\ inl h (All e) x).
  Context (LGM : forall x, inl h' GMrk x <-> inl h GMrk x \/ S x).
  Context (LGU : forall x, inl h' GUnm x <-> inl h GUnm x /\ ~ S x).
  Context (LGF : forall x, inl h' GFree x <-> inl h GFree x).
  Context (FO : forall e, e < c -> frames h' e = frames h e).
  Let f' := frames h' c.
  Let fd := frames h d.
  Let fc := frames h c.
  Context (FMin : min_gen f' = min_gen fc).
  Context (FGen : (c < d /\ gen f' = gen fc) \/ (c = d /\ gen f' = max_gen fd)).
  Context (FMax : max_gen fc <= max_gen f').
  Context (FMaxc : c = d -> max_gen fd < max_gen f').
  Context (FMaxd : (exists x, K x) \/ g_frame (gc h) = d -> max_gen fd <= max_gen f').
  Context (GG : g_gen (gc h') = g_gen (gc h) /\ g_min (gc h') = g_min (gc h) /\ g_max (gc h') = g_max (gc h)).
  Context (G1 : g_frame (gc h) = d -> g_frame (gc h') = c /\ g_int (gc h') = true /\
             forall x, In x (g_save (gc h')) <-> S x).
  Context (G0 : g_frame (gc h) <> d -> g_frame (gc h') = g_frame (gc h) /\ g_int (gc h') = g_int (gc h) /\
             g_save (gc h') = g_save (gc h)).
  Context (GN : g_next (gc h') = match g_next (gc h) with
                  | None => Some c
                  | Some n => if Nat.eq_dec n d then Some c else Some n end).
  Context (HR : forall e v, e <= c -> In v (R' e) -> (e <> d /\ In v (R e)) \/ (e = c /\ In v vs)).
  Context (HP : forall e r, e <= c -> In r (P' e) -> e <> d /\ In r (P e)).

  Lemma sk_gv x : In (VObj x) vs -> gv h d (VObj x).
  Proof. intros H. eapply root_gv; eauto. rewrite Hd; auto. Qed.

  Lemma sk_ingc x : ingc h' x <-> ingc h x.
  Proof.
    unfold ingc. rewrite LGM, LGU. split.
    - intros [[H|[_ [_ H]]]|[H _]]; auto.
    - intros [H|H]; auto. destruct (inl_dec h' GMrk x) as [Hm|Hm].
      + rewrite LGM in Hm. auto.
      + right. split; auto. intros Hs. apply Hm. rewrite LGM. auto.
  Qed.

  Lemma sk_S_K x : S x -> K x.
  Proof. intros [H1 [H2 H3]]. split; auto. right; right; right; left. auto. Qed.

  Lemma sk_frd x : fr h x d <->
    inl h (Unm d) x \/ inl h (Mrk d) x \/ inl h (All d) x \/ (ingc h x /\ g_frame (gc h) = d).
  Proof. unfold fr. split; [|unfold ingc; tauto]. intros [H|[H|[H|[H|H]]]]; auto. exfalso. eapply Hns; eauto. Qed.

  Lemma sk_c : c <= d. Proof. lia. Qed.
  Lemma sk_ct : c <= top h. Proof. lia. Qed.
  Lemma sk_gfd : g_frame (gc h) <= d. Proof. rewrite Hd. apply (i_gf _ _ _ _ I). Qed.

  (** every object of the old frame is either kept or potential garbage of [c] *)
  Lemma sk_cover x : fr h x d -> Uf h' c x \/ Mf h' c x.
  Proof.
    intros Hf. pose proof Hf as Hf0. rewrite sk_frd in Hf.
    destruct (in_dec Nat.eq_dec x (flat_map obj_of vs)) as [Hi|Hi].
    - assert (Hv : In (VObj x) vs).
      { apply in_flat_map in Hi. destruct Hi as [v [H1 H2]]. destruct v; try contradiction.
        destruct H2 as [<-|[]]. auto. }
      right. unfold Mf. rewrite LM.
      destruct (ingc_dec h x) as [Hg|Hg].
      + assert (Hgd : g_frame (gc h) = d).
        { destruct Hf as [H|[H|[H|[H1 H2]]]]; auto; destruct Hg as [Hg|Hg];
            pose proof (i_uniq _ _ _ _ I _ _ _ H Hg); discriminate. }
        destruct (G1 Hgd) as [A1 [A2 A3]]. right. split; auto. split; auto. apply A3. split; auto.
      + left. right. split; auto. split; [split; auto|]. intros [_ [_ H]]. contradiction.
    - left. unfold Uf. rewrite LU. assert (Hk : ~ K x).
      { intros [H _]. apply Hi. apply in_flat_map. exists (VObj x). cbn; auto. }
      destruct Hf as [H|[H|[H|[H1 H2]]]].
      + left. right. split; auto.
      + left. right. split; auto.
      + left. right. split; auto.
      + right. destruct (G1 H2) as [A1 [A2 A3]]. split; auto. split; auto. apply sk_ingc. auto.
  Qed.

  Lemma sk_Uf1 x : Uf h' c x -> fr h x d \/ (c < d /\ Uf h c x).
  Proof.
    intros [H|[H1 [H2 H3]]].
    - rewrite LU in H. destruct H as [[H _]|[_ [H _]]]; [lia|].
      destruct Hcd as [->|Hc].
      + left. unfold fr. tauto.
      + destruct H as [H|H]; [right; split; [lia|left; auto]|left; unfold fr; tauto].
    - rewrite sk_ingc in H3. destruct (Nat.eq_dec (g_frame (gc h)) d) as [Hg|Hg].
      + left. right; right; right; left. auto.
      + destruct (G0 Hg) as [A1 [A2 A3]]. pose proof sk_gfd. right. split; [lia|]. right.
        split; [congruence|]. split; [congruence|auto].
  Qed.

  Lemma sk_Uf2 x : c < d -> Uf h c x -> Uf h' c x.
  Proof.
    intros Hlt [H|[H1 [H2 H3]]].
    - left. rewrite LU. right. split; auto. split; auto. intros [_ Hf].
      assert (c = d); [|lia]. eapply (fr_unique I); eauto. left. auto.
    - right. destruct (G0 ltac:(lia)) as [A1 [A2 A3]]. split; [congruence|]. split; [congruence|].
      apply sk_ingc. auto.
  Qed.

  Lemma sk_Mf1 x : Mf h' c x -> K x \/ (c < d /\ Mf h c x).
  Proof.
    intros [H|[H1 [H2 H3]]].
    - rewrite LM in H. destruct H as [[_ [Hn H]]|[_ [H _]]]; auto. right. split; [lia|left; auto].
    - destruct (Nat.eq_dec (g_frame (gc h)) d) as [Hg|Hg].
      + left. destruct (G1 Hg) as [A1 [A2 A3]]. apply sk_S_K. apply A3. auto.
      + destruct (G0 Hg) as [A1 [A2 A3]]. pose proof sk_gfd. right. split; [lia|]. right.
        split; [congruence|]. split; [congruence|]. rewrite <- A3. auto.
  Qed.

  Lemma sk_Mf2 x : c < d -> Mf h c x -> Mf h' c x.
  Proof.
    intros Hlt [H|[H1 [H2 H3]]].
    - left. rewrite LM. left. split; auto. split; [lia|auto].
    - right. destruct (G0 ltac:(lia)) as [A1 [A2 A3]]. split; [congruence|]. split; [congruence|].
      rewrite A3. auto.
  Qed.

  Lemma sk_K_Mf x : K x -> Mf h' c x.
  Proof.
    intros Hk. unfold Mf. rewrite LM. destruct (ingc_dec h x) as [Hg|Hg].
    - assert (Hgd : g_frame (gc h) = d).
      { destruct Hk as [_ Hf]. rewrite sk_frd in Hf.
        destruct Hf as [H|[H|[H|[H1 H2]]]]; auto; destruct Hg as [Hg|Hg];
            pose proof (i_uniq _ _ _ _ I _ _ _ H Hg); discriminate. }
      right. destruct (G1 Hgd) as [A1 [A2 A3]]. split; auto. split; auto. apply A3. split; auto.
      split; auto. apply Hk.
    - left. right. split; auto. split; auto. intros [_ [_ H]]. contradiction.
  Qed.

  Lemma sk_Uf_lt e x : e < c -> (Uf h' e x <-> Uf h e x).
  Proof.
    intros He. unfold Uf. rewrite LU, sk_ingc.
    destruct (Nat.eq_dec (g_frame (gc h)) d) as [Hg|Hg].
    - destruct (G1 Hg) as [A1 [A2 A3]]. rewrite A1. split.
      + intros [[[_ H]|[H _]]|[_ [H _]]]; [auto|lia|lia].
      + intros [H|[_ [H _]]]; [auto|lia].
    - destruct (G0 Hg) as [A1 [A2 A3]]. rewrite A1, A2. split.
      + intros [[[_ H]|[H _]]|H]; [auto|lia|auto].
      + intros [H|H]; auto.
  Qed.
  Lemma sk_Mf_lt e x : e < c -> (Mf h' e x <-> Mf h e x).
  Proof.
    intros He. unfold Mf. rewrite LM.
    destruct (Nat.eq_dec (g_frame (gc h)) d) as [Hg|Hg].
    - destruct (G1 Hg) as [A1 [A2 A3]]. rewrite A1. split.
      + intros [[[_ [_ H]]|[H _]]|[_ [H _]]]; [auto|lia|lia].
      + intros [H|[_ [H _]]]; [|lia]. left. left. split; [lia|]. split; [lia|auto].
    - destruct (G0 Hg) as [A1 [A2 A3]]. rewrite A1, A2, A3. split.
      + intros [[[_ [_ H]]|[H _]]|H]; [auto|lia|auto].
      + intros [H|H]; auto. left. left. split; [lia|]. split; [lia|auto].
  Qed.
  Lemma sk_rchf_lt e x : e < c -> (rchf h' e x <-> rchf h e x).
  Proof.
    intros He. unfold rchf. rewrite Hmem. apply rch_iff.
    - intros y. apply sk_Mf_lt; auto.
    - intros y. apply sk_Uf_lt; auto.
    - intros o y. reflexivity.
  Qed.
  Lemma sk_Cf_lt e x : e < c -> (Cf h' e x <-> Cf h e x).
  Proof. intros He. unfold Cf. rewrite sk_Uf_lt, sk_rchf_lt by auto. reflexivity. Qed.

  Lemma sk_rchf_up x : c < d -> rchf h c x -> rchf h' c x.
  Proof.
    intros Hlt. unfold rchf. rewrite Hmem. apply rch_mono; auto.
    - intros y. apply sk_Mf2; auto.
    - intros y. apply sk_Uf2; auto.
  Qed.

  Lemma sk_nf x : nf h' x <-> nf h x.
  Proof. unfold nf. rewrite Hmem, LGF. reflexivity. Qed.

  Lemma sk_Uf_nf e x : Uf h e x -> nf h x.
  Proof. intros [H|[_ [_ [H|H]]]]; eapply listed_nf; eauto; discriminate. Qed.
  Lemma sk_Uf_fr e x : Uf h e x -> fr h x e.
  Proof. intros [H|[_ [H1 H]]]; unfold fr, ingc in *; tauto. Qed.
  Lemma sk_Mf_fr e x : Mf h e x -> fr h x e.
  Proof.
    intros [H|[H0 [H1 H]]]; [unfold fr; tauto|].
    destruct (i_int _ _ _ _ I H0) as [_ [H2 _]]. subst e. specialize (H2 _ H). unfold fr. tauto.
  Qed.
  Lemma sk_rchf_fr e x : rchf h e x -> fr h x e.
  Proof. intros H. apply rch_in in H. destruct H; [apply sk_Mf_fr|apply sk_Uf_fr]; auto. Qed.
  Lemma sk_fr_nf e x : fr h x e -> nf h x.
  Proof.
    intros H. destruct H as [H|[H|[H|[[[H|H] _]|H]]]]; try (eapply listed_nf; eauto; discriminate).
    split; [destruct H as [ob [p [H _]]]; congruence|].
    intros Hf. eapply (gc_not_stack I); eauto.
  Qed.

  (** Objects of the old frame reachable from kept ones. *)
  Lemma sk_kind x : rchf h' c x ->
    (fr h x d /\ gv h d (VObj x) /\ (exists y, K y)) \/ (c < d /\ rchf h c x).
  Proof.
    intros H. induction H as [x Hm|o x Hr IH He Hu].
    - destruct (sk_Mf1 _ Hm) as [Hk|[Hlt H]].
      + left. split; [apply Hk|]. split; [apply sk_gv, Hk|eauto].
      + right. split; auto. apply rch_base. auto.
    - rewrite Hmem in He. destruct IH as [[Hf [Hg Hex]]|[Hlt Hrc]].
      + assert (Hgx : gv h d (VObj x)) by (eapply gv_edge; eauto).
        destruct (sk_Uf1 _ Hu) as [Hx|[Hlt Hx]]; [left; auto|].
        right. split; auto. destruct Hgx as [_ [_ [HC _]]]. apply HC; auto. lia.
      + destruct (sk_Uf1 _ Hu) as [Hx|[_ Hx]].
        * exfalso. assert (Hfo : fr h o c) by (apply sk_rchf_fr; auto).
          destruct (i_edge _ _ _ _ I o x) as [_ H2]; auto; [eapply sk_fr_nf; eauto|].
          specialize (H2 _ Hfo). pose proof (frle_fr I _ _ _ H2 Hx). lia.
        * right. split; auto. eapply rch_step; eauto.
  Qed.

  Lemma sk_gpr x : gpr h' x <-> gpr h x.
  Proof.
    assert (HS : forall y, S y -> gpr h y).
    { intros y [H1 [H2 H3]]. destruct H3 as [H3|H3]; [apply rch_base; auto|].
      apply (i_Tgroot _ _ _ _ I d y); auto. lia. }
    split.
    - intros H. induction H as [x Hm|o x Hr IH He Hu].
      + rewrite LGM in Hm. destruct Hm; [apply rch_base|apply HS]; auto.
      + rewrite Hmem in He. rewrite LGU in Hu. eapply rch_step; [exact IH|exact He|apply Hu].
    - intros H. induction H as [x Hm|o x Hr IH He Hu].
      + apply rch_base. rewrite LGM. auto.
      + destruct (inl_dec h' GMrk x) as [Hm|Hm]; [apply rch_base; auto|].
        eapply rch_step; [exact IH|rewrite Hmem; exact He|]. rewrite LGU. split; auto.
        intros Hs. apply Hm. rewrite LGM. auto.
  Qed.
  Lemma sk_Cg x : Cg h' x <-> Cg h x.
  Proof.
    unfold Cg. rewrite LGU, sk_gpr. split; intros H.
    - intros Hu. destruct (inl_dec h' GMrk x) as [Hm|Hm].
      + rewrite <- sk_gpr. apply rch_base. auto.
      + apply H. split; auto. intros Hs. apply Hm. rewrite LGM. auto.
    - intros [Hu _]. auto.
  Qed.

  Lemma sk_fr x e : fr h' x e <-> (e < c /\ fr h x e) \/ (e = c /\ (fr h x c \/ fr h x d)).
  Proof.
    split.
    - intros H. unfold fr in H. fold (ingc h' x) in H. rewrite LU, LM, LA, sk_ingc, Hmem in H.
      assert (Hst : stackobj (mem h) x e -> (e < c /\ fr h x e) \/ (e = c /\ (fr h x c \/ fr h x d))).
      { intros Hs. assert (e <= d).
        { destruct Hs as [ob [p [H1 H2]]]. destruct (i_stack _ _ _ _ I _ _ _ _ H1 H2) as [H3 _]. lia. }
        assert (e <> d) by (intros ->; eapply Hns; eauto).
        assert (He : e < c \/ e = c) by lia.
        assert (fr h x e) by (unfold fr; tauto).
        destruct He as [He| ->]; auto. }
      destruct H as [H|[H|[H|[[H Hg]|H]]]]; auto.
      + destruct H as [[H1 H2]|[-> [H _]]]; [left; unfold fr; tauto|].
        right. split; auto. unfold fr; tauto.
      + destruct H as [[H1 [H2 H3]]|[-> [[_ H] _]]].
        * destruct (Nat.eq_dec e c) as [->|]; [right; split; auto; left; unfold fr; tauto|].
          left. split; [lia|unfold fr; tauto].
        * right. auto.
      + destruct H as [H1 [H2 H3]]. destruct (Nat.eq_dec e c) as [->|]; [right; split; auto; left; unfold fr; tauto|].
        left. split; [lia|unfold fr; tauto].
      + destruct (Nat.eq_dec (g_frame (gc h)) d) as [Hgd|Hgd].
        * destruct (G1 Hgd) as [A1 _]. right. split; [congruence|]. right. right; right; right; left. auto.
        * destruct (G0 Hgd) as [A1 _]. pose proof sk_gfd.
          assert (Hx : fr h x e) by (right; right; right; left; split; [exact H|congruence]).
          assert (e < c \/ e = c) as [| ->] by lia; auto.
    - intros [[He H]|[-> [H|H]]].
      + unfold fr in *. fold (ingc h' x). rewrite LU, LM, LA, sk_ingc, Hmem.
        destruct H as [H|[H|[H|[[H Hg]|H]]]]; auto.
        * right. left. left. split; [lia|]. split; [lia|auto].
        * right. right. left. split; [lia|]. split; [lia|auto].
        * right. right. right. left. split; auto. destruct (G0 ltac:(lia)) as [A1 _]. congruence.
      + destruct Hcd as [Hc|Hc].
        * rewrite Hc in H. unfold fr. destruct (sk_cover _ H) as [[Hu|[_ [Hu Hg]]]|[Hu|[Hi [Hu Hs]]]]; auto;
          [right; right; right; left; split; [exact Hg|exact Hu]|].
          destruct (Nat.eq_dec (g_frame (gc h)) d) as [Hgd|Hgd].
          -- destruct (G1 Hgd) as [_ [_ A3]]. apply A3 in Hs. right; right; right; left. split; auto.
             apply sk_ingc. apply Hs.
          -- destruct (G0 Hgd) as [A1 _]. congruence.
        * unfold fr. fold (ingc h' x). rewrite LU, LM, LA, sk_ingc, Hmem.
          destruct H as [H|[H|[H|[[H Hg]|H]]]]; auto.
          -- left. right. split; auto. split; auto. intros [_ Hf].
             assert (c = d); [|lia]. eapply (fr_unique I); eauto. left; auto.
          -- right. left. left. split; [lia|]. split; [lia|auto].
          -- right. right. left. split; [lia|]. split; [lia|auto].
          -- right. right. right. left. split; auto. destruct (G0 ltac:(lia)) as [A1 _]. congruence.
      + unfold fr. destruct (sk_cover _ H) as [[Hu|[_ [Hu Hg]]]|[Hu|[Hi [Hu Hs]]]]; auto;
          [right; right; right; left; split; [exact Hg|exact Hu]|].
        destruct (Nat.eq_dec (g_frame (gc h)) d) as [Hgd|Hgd].
        * destruct (G1 Hgd) as [_ [_ A3]]. apply A3 in Hs. right; right; right; left. split; auto.
          apply sk_ingc. apply Hs.
        * destruct (G0 Hgd) as [A1 [A2 A3]]. rewrite A3 in Hs. rewrite A2 in Hi.
          exfalso. destruct (i_int _ _ _ _ I Hi) as [_ [H2 _]]. specialize (H2 _ Hs).
          assert (Hff : fr h x (g_frame (gc h))) by (unfold fr; tauto).
          apply Hgd. eapply (fr_unique I); eauto.
  Qed.

  Lemma sk_frle x e : e < c -> frle h x e -> frle h' x e.
  Proof.
    intros He [e' [H1 H2]]. exists e'. split; auto. apply sk_fr. left. split; [lia|auto].
  Qed.
  Lemma sk_frle_c x : nf h x -> frle h' x c.
  Proof.
    intros Hn. destruct (nf_fr I _ Hn) as [e He].
    pose proof (fr_top I _ _ He) as Ht.
    assert (e < c \/ e = c \/ e = d) as [Hl|[->| ->]] by lia.
    - exists e. split; [lia|]. apply sk_fr. auto.
    - exists c. split; auto. apply sk_fr. auto.
    - exists c. split; auto. apply sk_fr. auto.
  Qed.

  Lemma sk_chain e : e < c -> max_gen (frames h e) <= min_gen fc.
  Proof. intros He. apply (chain I); auto. lia. Qed.
  Lemma sk_chain_d : c < d -> max_gen fc <= min_gen fd.
  Proof. intros He. apply (chain I); auto. lia. Qed.

  Lemma sk_rng x g : gv h d (VObj x) -> fr h x d -> genx (mem h) x g -> min_gen fd <= g < max_gen fd.
  Proof.
    intros [_ [_ [HC HG]]] Hf Hg. eapply (gen_range I); eauto. apply HC. lia.
  Qed.

  Lemma sk_listed l x : inl h l x -> exists l', inl h' l' x.
  Proof.
    intros Hl. destruct (lid_eq_dec l GFree) as [->|Hn].
    - exists GFree. apply LGF. auto.
    - assert (Hnf : nf h x) by (eapply listed_nf; eauto).
      destruct (nf_fr I _ Hnf) as [e He]. pose proof (fr_top I _ _ He) as Ht.
      assert (Hf : exists e', fr h' x e').
      { assert (e < c \/ e = c \/ e = d) as [Hlt|[->| ->]] by lia.
        - exists e. apply sk_fr; auto.
        - exists c. apply sk_fr; auto.
        - exists c. apply sk_fr; auto. }
      destruct Hf as [e' [H|[H|[H|[[[H|H] _]|H]]]]]; eauto.
      exfalso. rewrite Hmem in H. eapply (gc_not_stack I); eauto.
  Qed.

  Lemma sk_inl_back l x : inl h' l x -> exists l', inl h l' x.
  Proof.
    intros Hl.
    assert (HK : K x -> exists l', inl h l' x).
    { intros [_ Hf]. rewrite sk_frd in Hf. destruct Hf as [H|[H|[H|[[H|H] _]]]]; eauto. }
    destruct l as [e|e|e| | |].
    - rewrite LU in Hl. destruct Hl as [[_ H]|[_ [[H|[H|[H|H]]] _]]]; eauto.
    - rewrite LM in Hl. destruct Hl as [[_ [_ H]]|[_ [H _]]]; eauto.
    - rewrite LA in Hl. destruct Hl as [_ [_ H]]; eauto.
    - rewrite LGM in Hl. destruct Hl as [H|H]; [eauto|]. apply HK. apply sk_S_K. auto.
    - rewrite LGU in Hl. destruct Hl; eauto.
    - rewrite LGF in Hl. eauto.
  Qed.

  Lemma sk_le e : e <= top h' -> e < c \/ e = c.
  Proof. rewrite Htop. lia. Qed.

  Lemma sk_root e x : e <= top h' -> In (VObj x) (R' e) ->
    (e <> d /\ In (VObj x) (R e)) \/ (e = c /\ In (VObj x) vs).
  Proof. intros He Hx. apply HR; auto. lia. Qed.

  Lemma sink_inv : Inv h' R' P' [].
  Proof.
    destruct GG as [GG1 [GG2 GG3]].
    pose proof sk_gfd as Hgfd.
    pose proof (i_gens _ _ _ _ I d ltac:(lia)) as Hgd. fold fd in Hgd.
    pose proof (i_gens _ _ _ _ I c ltac:(lia)) as Hgc. fold fc in Hgc.
    pose proof (i_ggen _ _ _ _ I) as Hgg.
    pose proof (i_gmax _ _ _ _ I) as Hgx. pose proof (i_gmin _ _ _ _ I) as Hgn.
    assert (Hfcd : c = d -> fc = fd) by (intros H; unfold fc, fd; congruence).
    constructor; [constructor|..].
    - apply Hok.
    - apply Hok.
    - intros e He. rewrite Htop in He.
      assert (Hnil : forall l, (forall x, ~ inl h' l x) -> lists h' l = []).
      { intros l Hl. destruct (lists h' l) as [|x r] eqn:E; auto. exfalso. apply (Hl x).
        unfold inl. rewrite E. left; auto. }
      split; [|split]; apply Hnil; intros x Hx.
      + rewrite LU in Hx. lia.
      + rewrite LM in Hx. lia.
      + rewrite LA in Hx. lia.
    - intros l x Hl. rewrite Hmem. destruct (sk_inl_back _ _ Hl) as [l' Hl']. eapply i_gcobj; eauto.
    - intros x Hx. rewrite Hmem in Hx. destruct (i_listed _ _ _ _ I _ Hx) as [l Hl]. eapply sk_listed; eauto.
    - rewrite Hmem, Hfresh. apply (i_fresh _ _ _ _ I).
    - intros x ob g e. rewrite Hmem, Htop. intros H1 H2.
      destruct (i_stack _ _ _ _ I x ob g e H1 H2) as [H3 H4]. split; [|exact H4].
      assert (e <> d) by (intros ->; apply (Hns x); exists ob, g; auto). lia.
    - intros x ob. rewrite sk_nf, Hmem. apply (i_uninit _ _ _ _ I).
    - intros b e [].
    - intros o x. rewrite !sk_nf, Hmem. intros Ho He. destruct (i_edge _ _ _ _ I o x Ho He) as [H1 H2].
      split; auto. intros e Hfe. rewrite sk_fr in Hfe. destruct Hfe as [[Hl Hfe]|[-> _]].
      + apply sk_frle; auto.
      + apply sk_frle_c; auto.
    - intros o x. rewrite sk_nf, Hmem. apply (i_gcedge _ _ _ _ I).
    - rewrite Hmem. apply (i_gcptr _ _ _ _ I).
    - intros e x He Hx. rewrite sk_nf. destruct (sk_root _ _ He Hx) as [[H1 H2]|[-> H2]].
      + destruct (i_root _ _ _ _ I e x) as [H3 H4]; auto; [lia|]. split; auto.
        destruct (sk_le _ He) as [Hl| ->]; [apply sk_frle; auto|apply sk_frle_c; auto].
      + destruct (sk_gv _ H2) as [H3 _]. split; auto. apply sk_frle_c; auto.
    - intros e He Hx. destruct (HR e VUninit) as [[H1 H2]|[-> H2]]; auto; [lia|].
      eapply (i_rootu _ _ _ _ I e); eauto. lia.
    - intros e r He Hr. rewrite Htop in He. destruct (HP e r He Hr) as [H1 H2].
      rewrite LA, Hmem. destruct (i_pend _ _ _ _ I e r) as [H3 H4]; auto. lia.
    - intros e He. destruct (sk_le _ He) as [Hl| ->].
      + rewrite FO by auto. apply (i_gens _ _ _ _ I). lia.
      + fold f'. rewrite FMin. destruct FGen as [[H1 H2]|[H1 H2]]; rewrite H2; [lia|].
        pose proof (FMaxc H1) as FMaxc1. rewrite (Hfcd H1). lia.
    - intros e He. rewrite Htop in He. rewrite FO by lia.
      destruct (Nat.eq_dec (Datatypes.S e) c) as [E|E].
      + rewrite E. fold f'. rewrite FMin. apply sk_chain. lia.
      + rewrite FO by lia. apply (i_chain _ _ _ _ I). lia.
    - intros e x g He Ha Hg. rewrite LA in Ha. destruct Ha as [H1 [H2 H3]]. rewrite Hmem in Hg.
      destruct (sk_le _ He) as [Hl| ->].
      + rewrite FO by auto. apply (i_all _ _ _ _ I _ x); auto. lia.
      + fold f'. destruct FGen as [[H4 H5]|[H4 _]]; [|lia]. rewrite H5.
        apply (i_all _ _ _ _ I _ x); auto. lia.
    - intros e x g He Hr Hg. rewrite Hmem in Hg. destruct (sk_le _ He) as [Hl| ->].
      + rewrite FO by auto. apply (i_rch _ _ _ _ I _ x); auto; [lia|]. apply sk_rchf_lt in Hr; auto.
      + fold f'. rewrite FMin. destruct (sk_kind _ Hr) as [[H1 [H2 H3]]|[H1 H2]].
        * pose proof (sk_rng _ _ H2 H1 Hg) as Hrg. pose proof (FMaxd (or_introl H3)) as FMaxd1.
          destruct FGen as [[H4 H5]|[H4 H5]]; rewrite H5.
          -- pose proof (sk_chain_d H4). lia.
          -- rewrite (Hfcd H4). lia.
        * destruct FGen as [[H4 H5]|[H4 H5]]; [|lia]. rewrite H5.
          pose proof (i_rch _ _ _ _ I c x g ltac:(lia) H2 Hg) as H6. fold fc in H6. lia.
    - intros x g. rewrite sk_gpr, Hmem, GG1, GG2, GG3. apply (i_gpr _ _ _ _ I).
    - intros o x. rewrite sk_gpr, Hmem, sk_ingc, GG1, GG2. apply (i_gout _ _ _ _ I).
    - intros x g Hr Hi Hg. rewrite Hmem in Hg. rewrite sk_ingc in Hi. rewrite GG1, GG2, GG3.
      assert (Hkind1 : fr h x d -> gv h d (VObj x) ->
                g < g_min (gc h) \/ g = g_gen (gc h) \/ g_max (gc h) <= g).
      { intros H1 H2.
        assert (I' : Inv h (radd R d [VObj x]) P []).
        { apply inv_radd; auto. intros v [<-|[]]. auto. }
        pose proof (root_undergoing I' d x g ltac:(lia)) as Hu.
        rewrite in_radd in Hu. specialize (Hu ltac:(left; cbn; auto) Hg).
        destruct (Nat.eq_dec g (g_gen (gc h))); [auto|].
        destruct (le_lt_dec (g_min (gc h)) g); [|auto].
        destruct (le_lt_dec (g_max (gc h)) g); [auto|].
        exfalso. apply Hi. apply Hu. auto. }
      destruct (Nat.eq_dec (g_frame (gc h)) d) as [Hg0|Hg0].
      + destruct (G1 Hg0) as [A1 _]. rewrite A1 in Hr.
        destruct (sk_kind _ Hr) as [[H1 [H2 _]]|[H1 H2]]; [auto|].
        left. pose proof (i_rch _ _ _ _ I c x g ltac:(lia) H2 Hg) as H6. fold fc in H6.
        pose proof (sk_chain_d H1) as H7. rewrite Hg0 in Hgn. fold fd in Hgn. lia.
      + destruct (G0 Hg0) as [A1 _]. rewrite A1 in Hr.
        assert (g_frame (gc h) < c \/ g_frame (gc h) = c) as [Hl|Hl] by lia.
        * apply sk_rchf_lt in Hr; auto. apply (i_g3 _ _ _ _ I x); auto.
        * rewrite Hl in Hr. destruct (sk_kind _ Hr) as [[H1 [H2 _]]|[H1 H2]]; [auto|].
          apply (i_g3 _ _ _ _ I x); auto. rewrite Hl. auto.
    - intros e o x He Ho HC Hx. rewrite sk_nf in Ho. rewrite Hmem in Hx.
      destruct (sk_le _ He) as [Hl| ->].
      + rewrite sk_Cf_lt in * by auto. apply (i_T _ _ _ _ I e o x); auto. lia.
      + intros Hu.
        assert (Hor : Uf h' c o \/ Mf h' c o -> rchf h' c o).
        { intros [H|H]; [apply HC; auto|apply rch_base; auto]. }
        destruct (nf_fr I _ Ho) as [e Hfe]. pose proof (fr_top I _ _ Hfe) as Hte.
        destruct (Nat.eq_dec e d) as [->|Hne].
        { eapply rch_step; [apply Hor; apply sk_cover; auto|rewrite Hmem; exact Hx|exact Hu]. }
        destruct (i_edge _ _ _ _ I o x Ho Hx) as [_ Hfx]. specialize (Hfx _ Hfe).
        destruct (sk_Uf1 _ Hu) as [H1|[H1 H2]].
        * exfalso. pose proof (frle_fr I _ _ _ Hfx H1). lia.
        * destruct (Uf_dec h c o) as [Huo|Huo].
          -- eapply rch_step; [apply Hor; left; apply sk_Uf2; auto|rewrite Hmem; exact Hx|exact Hu].
          -- apply sk_rchf_up; auto. apply (i_T _ _ _ _ I c o x); auto; [lia|].
             intros H. contradiction.
    - intros e e' x He He' Hx. destruct (sk_le _ He) as [Hl| ->].
      + rewrite sk_Cf_lt by auto. destruct (sk_root _ _ He' Hx) as [[H1 H2]|[-> H2]].
        * apply (i_Troot _ _ _ _ I e e' x); auto; lia.
        * apply sk_gv; auto. lia.
      + intros Hu. destruct (sk_root _ _ He' Hx) as [[H1 H2]|[-> H2]].
        * assert (He'' : e' < d) by lia. destruct (sk_Uf1 _ Hu) as [H3|[H3 H4]].
          -- exfalso. destruct (i_root _ _ _ _ I e' x) as [_ H4]; auto; [lia|].
             pose proof (frle_fr I _ _ _ H4 H3). lia.
          -- apply sk_rchf_up; auto. apply (i_Troot _ _ _ _ I c e' x); auto; lia.
        * destruct (sk_Uf1 _ Hu) as [H3|[H3 H4]].
          -- apply rch_base. apply sk_K_Mf. split; auto.
          -- apply sk_rchf_up; auto. apply sk_gv; auto. lia.
    - intros o x. rewrite sk_nf, !sk_Cg, Hmem. apply (i_Tg _ _ _ _ I).
    - intros e x He Hx. rewrite sk_Cg. destruct (sk_root _ _ He Hx) as [[H1 H2]|[-> H2]].
      + apply (i_Tgroot _ _ _ _ I e x); auto. lia.
      + apply sk_gv; auto.
    - rewrite Htop. destruct (Nat.eq_dec (g_frame (gc h)) d) as [Hg0|Hg0].
      + destruct (G1 Hg0) as [A1 _]. lia.
      + destruct (G0 Hg0) as [A1 _]. lia.
    - rewrite GG1, GG2, GG3. exact Hgg.
    - rewrite GG3. destruct (Nat.eq_dec (g_frame (gc h)) d) as [Hg0|Hg0].
      + destruct (G1 Hg0) as [A1 _]. rewrite A1. fold f'. pose proof (FMaxd (or_intror Hg0)) as FMaxd1.
        rewrite Hg0 in Hgx. fold fd in Hgx. lia.
      + destruct (G0 Hg0) as [A1 _]. rewrite A1.
        assert (g_frame (gc h) < c \/ g_frame (gc h) = c) as [Hl|Hl] by lia.
        * rewrite FO by auto. auto.
        * rewrite Hl in *. fold fc in Hgx. fold f'. lia.
    - rewrite GG2. destruct (Nat.eq_dec (g_frame (gc h)) d) as [Hg0|Hg0].
      + destruct (G1 Hg0) as [A1 _]. rewrite A1. fold f'. rewrite FMin.
        rewrite Hg0 in Hgn. fold fd in Hgn. destruct Hcd as [Hc|Hc].
        * rewrite (Hfcd Hc). lia.
        * pose proof (sk_chain_d ltac:(lia)). lia.
      + destruct (G0 Hg0) as [A1 _]. rewrite A1.
        assert (g_frame (gc h) < c \/ g_frame (gc h) = c) as [Hl|Hl] by lia.
        * rewrite FO by auto. auto.
        * rewrite Hl in *. fold fc in Hgn. fold f'. lia.
    - intros Hi. destruct (Nat.eq_dec (g_frame (gc h)) d) as [Hg0|Hg0].
      + destruct (G1 Hg0) as [_ [A1 _]]. congruence.
      + destruct (G0 Hg0) as [A1 [A2 A3]]. rewrite A1, A3, GG1. rewrite A2 in Hi.
        destruct (i_nint _ _ _ _ I Hi) as [H1 H2]. split; auto.
        assert (g_frame (gc h) < c \/ g_frame (gc h) = c) as [Hl|Hl] by lia.
        * rewrite FO by auto. auto.
        * rewrite Hl in *. fold f'. destruct FGen as [[_ H5]|[H4 _]]; [|lia]. rewrite H5. auto.
    - intros Hi. destruct (Nat.eq_dec (g_frame (gc h)) d) as [Hg0|Hg0].
      + destruct (G1 Hg0) as [A1 [A2 A3]]. rewrite A1, GG2, GG3. fold f'.
        rewrite Hg0 in Hgn, Hgx. fold fd in Hgn, Hgx. split; [|split].
        * destruct FGen as [[H4 H5]|[H4 H5]]; rewrite H5.
          -- left. pose proof (sk_chain_d H4). lia.
          -- right. lia.
        * intros x Hx. left. rewrite LGM. right. apply A3. auto.
        * rewrite GN. destruct (g_next (gc h)) as [n|] eqn:En; [|eauto].
          destruct (Nat.eq_dec n d); [eauto|]. exists n. split; auto.
          pose proof (i_next _ _ _ _ I n En). lia.
      + destruct (G0 Hg0) as [A1 [A2 A3]]. rewrite A1, A3, GG2, GG3. rewrite A2 in Hi.
        destruct (i_int _ _ _ _ I Hi) as [H1 [H2 H3]].
        assert (Hl : g_frame (gc h) < c \/ (g_frame (gc h) = c /\ c < d)) by lia.
        split; [|split].
        * destruct Hl as [Hl|[Hl Hl2]].
          -- rewrite FO by auto. auto.
          -- rewrite Hl in *. fold f'. destruct FGen as [[_ H5]|[H4 _]]; [|lia]. rewrite H5. auto.
        * intros x Hx. rewrite LGM, LU, LM. destruct (H2 x Hx) as [H4|[H4|H4]]; auto.
          -- right. left. destruct Hl as [Hl|[Hl Hl2]]; [auto|]. right. split; auto.
             rewrite Hl in H4. split; auto. intros [_ Hf]. assert (c = d); [|lia].
             eapply (fr_unique I); eauto. left; auto.
          -- right. right. left. split; [lia|]. split; [lia|auto].
        * destruct H3 as [n [H3 H4]]. exists n. rewrite GN, H3. destruct (Nat.eq_dec n d); [lia|auto].
    - intros n. rewrite GN, Htop. destruct (g_next (gc h)) as [m|] eqn:En.
      + pose proof (i_next _ _ _ _ I m En). destruct (Nat.eq_dec m d); intros [= <-]; lia.
      + intros [= <-]. lia.
    - intros e x He Hx. rewrite GN. destruct (sk_le _ He) as [Hl| ->].
      + assert (Hx' : inl h (Unm e) x \/ inl h (Mrk e) x).
        { rewrite LU, LM in Hx. destruct Hx as [[[_ H]|[H _]]|[[_ [_ H]]|[H _]]]; auto; lia. }
        destruct (i_work _ _ _ _ I e x ltac:(lia) Hx') as [n [H1 H2]].
        rewrite H1. destruct (Nat.eq_dec n d); [lia|eauto].
      + destruct (g_next (gc h)) as [n|] eqn:En; [|eauto]. destruct (Nat.eq_dec n d); [eauto|].
        exists n. split; auto. pose proof (i_next _ _ _ _ I n En). lia.
  Qed.
End sink.
