(** * Allocation, assignment and reallocation preserve the invariant. *)

From Coq Require Import Arith List Bool Lia.
From Verif Require Import GcModel GcInv GcStep.
Import ListNotations.

(** A value that may be used from frame [d]. *)
Definition gv (h : heap) (d : nat) (v : value) : Prop :=
  match v with
  | VObj x => nf h x /\ frle h x d /\ (forall F, F <= top h -> Cf h F x) /\ Cg h x
  | VUninit => False
  | _ => True
  end.

Lemma root_gv h R P B d v : Inv h R P B -> d <= top h -> In v (R d) -> gv h d v.
Proof.
  intros I Hd Hv. destruct v as [| |x|]; cbn; auto.
  - destruct (i_root _ _ _ _ I _ _ Hd Hv) as [H1 H2]. split; [auto|].
    split; [auto|]. split.
    + intros F HF. apply (i_Troot _ _ _ _ I _ d); auto.
    + apply (i_Tgroot _ _ _ _ I d); auto.
  - eapply i_rootu; eauto.
Qed.

Lemma inv_roots h R R' P B : Inv h R P B ->
  (forall d v, d <= top h -> In v (R' d) -> gv h d v) -> Inv h R' P B.
Proof.
  intros I H. destruct I as [[]]. constructor; auto; [constructor; auto|..].
  - intros d x Hd Hx. destruct (H _ _ Hd Hx) as [H1 [H2 _]]. auto.
  - intros d Hd Hu. apply (H _ _ Hd Hu).
  - intros d d' x Hd Hd' Hx. destruct (H _ _ Hd' Hx) as [_ [_ [H3 _]]]. auto.
  - intros d x Hd Hx. destruct (H _ _ Hd Hx) as [_ [_ [_ H4]]]. auto.
Qed.

Lemma frle_le h x d d' : frle h x d -> d <= d' -> frle h x d'.
Proof. intros [e [H1 H2]] H. exists e. split; auto. lia. Qed.

Lemma gv_le h d d' v : gv h d v -> d <= d' -> gv h d' v.
Proof.
  destruct v as [| |x|]; cbn; auto. intros [H1 [H2 H3]] H. split; [auto|]. split; [|auto].
  eapply frle_le; eauto.
Qed.

Lemma gv_edge h R P B d o x : Inv h R P B -> gv h d (VObj o) -> edge (mem h) o x -> gv h d (VObj x).
Proof.
  intros I [Hn [[e [He Hf]] [HC HG]]] Hed. cbn.
  destruct (i_edge _ _ _ _ I _ _ Hn Hed) as [H1 H2].
  split; [auto|]. split; [eapply frle_le; eauto|].
  split.
  - intros F HF. apply (i_T _ _ _ _ I F o x); auto.
  - apply (i_Tg _ _ _ _ I o x); auto.
Qed.

Definition radd (R : nat -> list value) (d : nat) (vs : list value) : nat -> list value :=
  upd R d (vs ++ R d).

Lemma in_radd R d vs d' v : In v (radd R d vs d') <-> (d' = d /\ In v vs) \/ In v (R d').
Proof.
  unfold radd, upd. destruct (Nat.eq_dec d' d) as [->|Hn].
  - rewrite in_app_iff. tauto.
  - tauto.
Qed.

Lemma inv_radd h R P B d vs : Inv h R P B ->
  (forall v, In v vs -> gv h d v) -> Inv h (radd R d vs) P B.
Proof.
  intros I H. eapply inv_roots; eauto. intros d' v Hd' Hv. apply in_radd in Hv.
  destruct Hv as [[-> Hv]|Hv]; auto. eapply root_gv; eauto.
Qed.

Lemma inv_runadd h R P B d vs : Inv h (radd R d vs) P B -> Inv h R P B.
Proof.
  intros I. eapply inv_roots; eauto. intros d' v Hd' Hv. eapply root_gv; eauto.
  apply in_radd. auto.
Qed.

Lemma inv_P h R P P' B : Inv h R P B ->
  (forall d r, d <= top h -> In r (P' d) -> In r (P d)) -> Inv h R P' B.
Proof.
  intros I H. destruct I as [[]]. constructor; auto. constructor; auto.
Qed.

(** ** Writing one object *)

Section write.
  Context {h h' : heap} {R : nat -> list value} {P : nat -> list nat} {B B' : list (nat * nat)}.
  Context (I : Inv h R P B) (o d : nat) (ob' : obj) (Hd : d <= top h).
  Context (Htop : top h' = top h) (Hfrm : frames h' = frames h) (Hgc : gc h' = gc h)
          (Hmem : mem h' = upd (mem h) o (Some ob'))
          (Hfresh : fresh h <= fresh h' /\ o < fresh h')
          (Hold : (fresh h <= o) \/ (nf h o /\ fr h o d /\ (gcobj (mem h) o <-> exists g, oloc ob' = LGc g)))
          (Hloc : (oloc ob' = LGc (gen (frames h d)) /\
                   (forall l x, inl h' l x <-> inl h l x \/ (l = All d /\ x = o)) /\
                   (forall l, inl h l o -> l = All d))
               \/ ((exists p, oloc ob' = LStack p d) /\ kind_ok (okind ob') /\
                   (forall l x, inl h' l x <-> inl h l x) /\
                   (forall y d', In (VObj y) (ofields ob') -> stackobj (mem h) y d' -> y < o)))
          (Hnd : forall l, NoDup (lists h' l))
          (Hedge : forall x, (In (VObj x) (ofields ob') \/ exists d', oloc ob' = LStack (Some x) d') ->
                     gv h d (VObj x))
          (Hgce : forall x, (exists g, oloc ob' = LGc g) -> In (VObj x) (ofields ob') -> gcobj (mem h) x)
          (Hgcp : forall x d', oloc ob' = LStack (Some x) d' -> gcobj (mem h) x)
          (Huni : In VUninit (ofields ob') -> In (o, d) B')
          (HB : forall b e, In (b, e) B -> In (b, e) B')
          (HB' : forall b e, In (b, e) B' -> In (b, e) B \/ (b = o /\ e = d /\ exists g, oloc ob' = LGc g))
          (Hpend : forall e, e <= top h -> In o (P e) -> okind ob' = KRef /\ exists v, ofields ob' = [v]).

  Lemma wr_mem x : x <> o -> mem h' x = mem h x.
  Proof. intros H. rewrite Hmem. unfold upd. destruct (Nat.eq_dec x o); congruence. Qed.
  Lemma wr_mem_o : mem h' o = Some ob'.
  Proof. rewrite Hmem. unfold upd. destruct (Nat.eq_dec o o); congruence. Qed.

  Lemma wr_new : fresh h <= o -> mem h o = None.
  Proof.
    intros H. destruct (mem h o) as [b|] eqn:E; auto. pose proof (i_fresh _ _ _ _ I _ _ E). lia.
  Qed.
  Lemma wr_new_list l : fresh h <= o -> ~ inl h l o.
  Proof.
    intros H Hl. destruct (i_gcobj _ _ _ _ I _ _ Hl) as [g [b [Hb _]]].
    rewrite wr_new in Hb; congruence.
  Qed.

  Lemma wr_not_all l : inl h l o -> l = All d.
  Proof.
    intros H. destruct Hloc as [[_ [_ Hl]]|[[p Hp] _]]; [auto|].
    exfalso. destruct Hold as [Hf|[_ [_ Hc]]].
    - eapply wr_new_list; eauto.
    - destruct Hc as [Hc _]. destruct (Hc (i_gcobj _ _ _ _ I _ _ H)) as [g Hg]. congruence.
  Qed.

  Lemma wr_inl l x : (forall e, l <> All e) -> (inl h' l x <-> inl h l x).
  Proof.
    intros Hl. destruct Hloc as [[_ [H _]]|[_ [_ [H _]]]]; rewrite H; [|tauto].
    split; [|tauto]. intros [H1|[-> _]]; auto. exfalso. eapply Hl; eauto.
  Qed.
  Lemma wr_inl_all e x : inl h' (All e) x <->
     inl h (All e) x \/ (e = d /\ x = o /\ exists g, oloc ob' = LGc g).
  Proof.
    destruct Hloc as [[H1 [H _]]|[[p H1] [_ [H _]]]]; rewrite H.
    - split; intros [H2|H2]; auto; right.
      + destruct H2 as [E ->]. injection E as ->. eauto.
      + destruct H2 as [-> [-> _]]. auto.
    - split; [tauto|]. intros [H2|[_ [_ [g H2]]]]; [auto|congruence].
  Qed.
  Lemma wr_inl_mono l x : inl h l x -> inl h' l x.
  Proof. destruct Hloc as [[_ [H _]]|[_ [_ [H _]]]]; rewrite H; auto. Qed.

  Lemma wr_ingc x : ingc h' x <-> ingc h x.
  Proof. unfold ingc. rewrite !wr_inl by discriminate. tauto. Qed.
  Lemma wr_ingc_o : ~ ingc h o.
  Proof. intros [H|H]; apply wr_not_all in H; discriminate. Qed.

  Lemma wr_nf x : nf h' x <-> nf h x \/ x = o.
  Proof.
    unfold nf. rewrite wr_inl by discriminate. destruct (Nat.eq_dec x o) as [->|Hx].
    - rewrite wr_mem_o. split; [auto|]. intros _. split; [congruence|].
      intros H. apply wr_not_all in H. discriminate.
    - rewrite wr_mem by auto. tauto.
  Qed.

  Lemma wr_edge a x : a <> o -> (edge (mem h') a x <-> edge (mem h) a x).
  Proof. intros Ha. unfold edge. rewrite wr_mem by auto. tauto. Qed.
  Lemma wr_edge_o x : edge (mem h') o x -> gv h d (VObj x).
  Proof.
    intros [b [Hb Hx]]. rewrite wr_mem_o in Hb. injection Hb as <-. auto.
  Qed.
  Lemma wr_genx x g : x <> o -> (genx (mem h') x g <-> genx (mem h) x g).
  Proof. intros Ha. unfold genx. rewrite wr_mem by auto. tauto. Qed.
  Lemma wr_stackobj x e : x <> o -> (stackobj (mem h') x e <-> stackobj (mem h) x e).
  Proof. intros Ha. unfold stackobj. rewrite wr_mem by auto. tauto. Qed.
  Lemma wr_gcobj x : gcobj (mem h) x -> gcobj (mem h') x.
  Proof.
    intros H. destruct (Nat.eq_dec x o) as [->|Hx].
    - destruct Hold as [Hf|[_ [_ Hc]]].
      + destruct H as [g [b [Hb _]]]. rewrite wr_new in Hb; congruence.
      + apply Hc in H. destruct H as [g Hg]. exists g, ob'. rewrite wr_mem_o; auto.
    - destruct H as [g H]. exists g. apply wr_genx; auto.
  Qed.

  Lemma wr_fr_o : fr h' o d.
  Proof.
    destruct Hloc as [[H1 [H _]]|[[p H1] _]].
    - right; right; left. apply H. auto.
    - right; right; right; right. exists ob', p. rewrite wr_mem_o. auto.
  Qed.
  Lemma wr_fr x e : x <> o -> (fr h' x e <-> fr h x e).
  Proof.
    intros Hx. unfold fr. rewrite wr_stackobj by auto. rewrite Hgc.
    rewrite (wr_inl (Unm e)), (wr_inl (Mrk e)), (wr_inl GMrk), (wr_inl GUnm), wr_inl_all by discriminate. intuition congruence.
  Qed.
  Lemma wr_fr_o_uniq e : fr h' o e -> e = d.
  Proof.
    intros H. unfold fr in H. rewrite (wr_inl (Unm e)), (wr_inl (Mrk e)), (wr_inl GMrk), (wr_inl GUnm), wr_inl_all in H by discriminate.
    destruct H as [H|[H|[[H|[H _]]|[[[H|H] _]|H]]]]; auto;
      try (apply wr_not_all in H; congruence).
    destruct H as [b [p [Hb Hp]]]. rewrite wr_mem_o in Hb. injection Hb as <-.
    destruct Hloc as [[H1 _]|[[p' H1] _]]; congruence.
  Qed.
  Lemma wr_frle x e : frle h x e -> frle h' x e.
  Proof.
    intros [k [H1 H2]]. destruct (Nat.eq_dec x o) as [->|Hx].
    - exists d. split; [|apply wr_fr_o].
      destruct Hold as [Hf|[_ [Hf _]]].
      + exfalso. unfold fr in H2.
        destruct H2 as [H|[H|[H|[[[H|H] _]|H]]]]; try (eapply wr_new_list; eauto; fail).
        destruct H as [b [p [Hb _]]]. rewrite wr_new in Hb; congruence.
      + assert (k = d) by (eapply (fr_unique I); eauto). lia.
    - exists k. split; auto. apply wr_fr; auto.
  Qed.

  Lemma wr_Uf e x : Uf h' e x <-> Uf h e x.
  Proof. unfold Uf. rewrite wr_ingc, Hgc, wr_inl by discriminate. tauto. Qed.
  Lemma wr_Mf e x : Mf h' e x <-> Mf h e x.
  Proof. unfold Mf. rewrite Hgc, wr_inl by discriminate. tauto. Qed.
  Lemma wr_Uf_o e : ~ Uf h e o.
  Proof.
    intros [H|[_ [_ H]]]; [apply wr_not_all in H; discriminate|]. apply wr_ingc_o; auto.
  Qed.
  Lemma wr_Mf_o e : ~ Mf h e o.
  Proof.
    intros [H|[Hi [_ H]]]; [apply wr_not_all in H; discriminate|].
    destruct (i_int _ _ _ _ I Hi) as [_ [Hs _]].
    destruct (Hs _ H) as [H'|[H'|H']]; apply wr_not_all in H'; discriminate.
  Qed.
  Lemma wr_rchf_o e : ~ rchf h e o.
  Proof. intros H. apply rch_in in H. destruct H; [eapply wr_Mf_o|eapply wr_Uf_o]; eauto. Qed.
  Lemma wr_rchf e x : rchf h' e x <-> rchf h e x.
  Proof.
    split; intros H.
    - induction H as [x H|a x H IH He Hu].
      + apply rch_base, wr_Mf; auto.
      + eapply rch_step; eauto; [|apply wr_Uf; auto]. apply wr_edge; auto.
        intros ->. eapply wr_rchf_o; eauto.
    - induction H as [x H|a x H IH He Hu].
      + apply rch_base, wr_Mf; auto.
      + eapply rch_step; eauto; [|apply wr_Uf; auto]. apply wr_edge; auto.
        intros ->. eapply wr_rchf_o; eauto.
  Qed.
  Lemma wr_gpr_o : ~ gpr h o.
  Proof. intros H. apply rch_in in H. apply wr_ingc_o. exact H. Qed.
  Lemma wr_gpr x : gpr h' x <-> gpr h x.
  Proof.
    split; intros H.
    - induction H as [x H|a x H IH He Hu].
      + apply rch_base. apply wr_inl in H; auto; discriminate.
      + eapply rch_step; eauto; [|apply wr_inl in Hu; auto; discriminate]. apply wr_edge; auto.
        intros ->. eapply wr_gpr_o; eauto.
    - induction H as [x H|a x H IH He Hu].
      + apply rch_base. apply wr_inl; auto; discriminate.
      + eapply rch_step; eauto; [|apply wr_inl; auto; discriminate]. apply wr_edge; auto.
        intros ->. eapply wr_gpr_o; eauto.
  Qed.
  Lemma wr_Cf e x : Cf h' e x <-> Cf h e x.
  Proof. unfold Cf. rewrite wr_Uf, wr_rchf. tauto. Qed.
  Lemma wr_Cg x : Cg h' x <-> Cg h x.
  Proof. unfold Cg. rewrite wr_gpr, wr_inl by discriminate. tauto. Qed.

  Lemma wr_gv e v : gv h e v -> gv h' e v.
  Proof.
    destruct v as [| |x|]; cbn; auto. intros [H1 [H2 [H3 H4]]].
    split; [apply wr_nf; auto|]. split; [apply wr_frle; auto|].
    split; [|apply wr_Cg; auto]. intros F HF. apply wr_Cf. apply H3. congruence.
  Qed.

  Lemma wr_gv_o : gv h' d (VObj o).
  Proof.
    cbn. split; [apply wr_nf; auto|]. split; [exists d; split; auto; apply wr_fr_o|].
    split.
    - intros F _. apply wr_Cf. intros H. exfalso. eapply wr_Uf_o; eauto.
    - apply wr_Cg. intros H. exfalso. apply wr_ingc_o. right; auto.
  Qed.

  Lemma write_inv : Inv h' R P B'.
  Proof.
    constructor; [constructor|..]; rewrite ?Htop, ?Hfrm, ?Hgc.
    - intros l l' x H1 H2.
      assert (Hc : forall k, inl h' k x -> inl h k x \/ (k = All d /\ x = o)).
      { intros k. destruct Hloc as [[_ [H _]]|[_ [_ [H _]]]]; rewrite H; tauto. }
      apply Hc in H1, H2. destruct H1 as [H1|[-> ->]], H2 as [H2|[-> E]]; auto.
      + eapply i_uniq; eauto.
      + subst x. apply wr_not_all in H1. congruence.
      + apply wr_not_all in H2. congruence.
    - apply Hnd.
    - intros e He. destruct (i_above _ _ _ _ I _ He) as [H1 [H2 H3]].
      assert (Hc : forall l, lists h l = [] -> l <> All d -> lists h' l = []).
      { intros l El Hl. destruct (lists h' l) as [|x t] eqn:E; auto. exfalso.
        assert (Hx : inl h' l x) by (unfold inl; rewrite E; cbn; auto).
        assert (Hx' : inl h l x).
        { destruct Hloc as [[_ [H _]]|[_ [_ [H _]]]]; rewrite H in Hx; tauto. }
        unfold inl in Hx'. rewrite El in Hx'. auto. }
      repeat split; apply Hc; auto; try discriminate. intros E. injection E as ->. lia.
    - intros l x H.
      assert (Hc : inl h l x \/ (l = All d /\ x = o /\ exists g, oloc ob' = LGc g)).
      { destruct Hloc as [[Hg [Hl _]]|[_ [_ [Hl _]]]]; rewrite Hl in H; [|auto].
        destruct H as [H|[-> ->]]; eauto. }
      destruct Hc as [Hc|[_ [-> [g Hg]]]].
      + apply wr_gcobj. eapply i_gcobj; eauto.
      + exists g, ob'. rewrite wr_mem_o. auto.
    - intros x [g Hg]. destruct (Nat.eq_dec x o) as [->|Hx].
      + exists (All d). apply wr_inl_all. right. repeat split; auto.
        destruct Hg as [b [Hb Hg]]. rewrite wr_mem_o in Hb. injection Hb as <-. eauto.
      + apply wr_genx in Hg; auto. destruct (i_listed _ _ _ _ I x) as [l Hl]; [exists g; auto|].
        exists l. apply wr_inl_mono; auto.
    - intros x b H. destruct (Nat.eq_dec x o) as [->|Hx]; [tauto|].
      rewrite wr_mem in H by auto. pose proof (i_fresh _ _ _ _ I _ _ H). lia.
    - intros x b g e H1 H2. destruct (Nat.eq_dec x o) as [->|Hx].
      + rewrite wr_mem_o in H1. injection H1 as <-.
        destruct Hloc as [[E _]|[[p E] [Hk [_ Hs]]]]; [congruence|].
        assert (e = d) by congruence. subst e. split; auto. split; auto.
        intros y d' Hy Hst. destruct (Nat.eq_dec y o) as [->|Hyo].
        * (* a stack object cannot contain itself *)
          exfalso. assert (Hgy : gv h d (VObj o)) by (apply Hedge; auto).
          destruct Hold as [Hf|[Hn [Hf Hc]]].
          -- destruct Hgy as [[Hm _] _]. apply Hm. apply wr_new; auto.
          -- assert (Hso : exists d'', stackobj (mem h) o d'').
             { destruct Hn as [Hm _]. destruct (mem h o) as [b0|] eqn:Eb; [|congruence].
               destruct (oloc b0) as [q d0|g0] eqn:El.
               - exists d0, b0, q. auto.
               - exfalso. destruct Hc as [Hc _]. destruct Hc as [g1 Hg1]; [exists g0, b0; auto|]. congruence. }
             destruct Hso as [d'' Hso]. specialize (Hs _ _ Hy Hso). lia.
        * apply wr_stackobj in Hst; auto. eauto.
      + rewrite wr_mem in H1 by auto.
        destruct (i_stack _ _ _ _ I _ _ _ _ H1 H2) as [Ha [Hb Hc]]. split; auto. split; auto.
        intros y d' Hy Hst. destruct (Nat.eq_dec y o) as [->|Hyo].
        * assert (Hnx : nf h x).
          { split; [congruence|]. intros Hfx. eapply (gc_not_stack I); eauto. exists b, g; eauto. }
          assert (Hno : nf h o) by (eapply (i_edge _ _ _ _ I x o); eauto; exists b; auto).
          destruct Hold as [Hf|[_ [Hfo Hco]]]; [exfalso; apply (proj1 Hno); apply wr_new; auto|].
          assert (Hso : stackobj (mem h) o d).
          { destruct Hst as [b1 [p1 [Hb1 Hp1]]]. rewrite wr_mem_o in Hb1. injection Hb1 as <-.
            destruct Hno as [Hm _]. destruct (mem h o) as [b0|] eqn:Eb; [|congruence].
            destruct (oloc b0) as [q d0|g0] eqn:El.
            - assert (fr h o d0) by (right; right; right; right; exists b0, q; auto).
              assert (d0 = d) by (eapply (fr_unique I); eauto). subst. exists b0, q; auto.
            - exfalso. destruct Hco as [Hco _]. destruct Hco as [g1 Hg1]; [exists g0, b0; auto|]. congruence. }
          eauto.
        * apply wr_stackobj in Hst; auto. eauto.
    - intros x b Hn Hb Hu. destruct (Nat.eq_dec x o) as [->|Hx].
      + rewrite wr_mem_o in Hb. injection Hb as <-. eauto.
      + rewrite wr_mem in Hb by auto. apply wr_nf in Hn. destruct Hn as [Hn|]; [|contradiction].
        destruct (i_uninit _ _ _ _ I _ _ Hn Hb Hu) as [e He]. eauto.
    - intros b e Hb. apply wr_inl_all. destruct (HB' _ _ Hb) as [H|[-> [-> H]]]; auto.
      left. eapply i_B; eauto.
    - intros a x Ha He. destruct (Nat.eq_dec a o) as [->|Hao].
      + pose proof (wr_edge_o _ He) as [H1 [H2 _]]. split; [apply wr_nf; auto|].
        intros e Hf. apply wr_fr_o_uniq in Hf. subst e. apply wr_frle; auto.
      + apply wr_edge in He; auto. apply wr_nf in Ha. destruct Ha as [Ha|]; [|contradiction].
        destruct (i_edge _ _ _ _ I _ _ Ha He) as [H1 H2]. split; [apply wr_nf; auto|].
        intros e Hf. apply wr_fr in Hf; auto. apply wr_frle; auto.
    - intros a x Ha Hg He. destruct (Nat.eq_dec a o) as [->|Hao].
      + destruct He as [b [Hb He]]. rewrite wr_mem_o in Hb. injection Hb as <-.
        destruct Hg as [g [b [Hb Hg]]]. rewrite wr_mem_o in Hb. injection Hb as <-.
        apply wr_gcobj. destruct He as [He|[d' He]]; [|congruence]. eauto.
      + apply wr_edge in He; auto. apply wr_nf in Ha. destruct Ha as [Ha|]; [|contradiction].
        apply wr_gcobj. eapply i_gcedge; eauto. destruct Hg as [g Hg]. exists g. apply wr_genx in Hg; auto.
    - intros a b g e H1 H2. apply wr_gcobj. destruct (Nat.eq_dec a o) as [->|Hao].
      + rewrite wr_mem_o in H1. injection H1 as <-. eauto.
      + rewrite wr_mem in H1 by auto. eapply i_gcptr; eauto.
    - intros e x He Hr. destruct (i_root _ _ _ _ I _ _ He Hr) as [H1 H2].
      split; [apply wr_nf; auto|apply wr_frle; auto].
    - apply (i_rootu _ _ _ _ I).
    - intros e r He Hr. destruct (i_pend _ _ _ _ I _ _ He Hr) as [H1 [b [v [H2 [H3 H4]]]]].
      split; [apply wr_inl_mono; auto|]. destruct (Nat.eq_dec r o) as [->|Hro].
      + destruct (Hpend _ He Hr) as [Hk [v' Hv]]. exists ob', v'. rewrite wr_mem_o. auto.
      + exists b, v. rewrite wr_mem; auto.
    - apply (i_gens _ _ _ _ I).
    - apply (i_chain _ _ _ _ I).
    - intros e x g He Hx Hg. destruct (Nat.eq_dec x o) as [->|Hxo].
      + destruct Hg as [b [Hb Hg]]. rewrite wr_mem_o in Hb. injection Hb as <-.
        destruct Hloc as [[E _]|[[p E] _]]; [|congruence].
        assert (e = d).
        { apply wr_inl_all in Hx. destruct Hx as [Hx|[Hx _]]; auto. apply wr_not_all in Hx. congruence. }
        congruence.
      + apply wr_genx in Hg; auto. apply wr_inl_all in Hx. destruct Hx as [Hx|[_ [Hx _]]]; [|contradiction].
        eapply i_all; eauto.
    - intros e x g He Hx Hg. apply wr_rchf in Hx.
      assert (x <> o) by (intros ->; eapply wr_rchf_o; eauto).
      apply wr_genx in Hg; auto. eapply i_rch; eauto.
    - intros x g Hx Hg. apply wr_gpr in Hx.
      assert (x <> o) by (intros ->; eapply wr_gpr_o; eauto).
      apply wr_genx in Hg; auto. eapply i_gpr; eauto.
    - intros a x Ha He. apply wr_gpr in Ha.
      assert (Hao : a <> o) by (intros ->; eapply wr_gpr_o; eauto).
      apply wr_edge in He; auto.
      destruct (i_gout _ _ _ _ I _ _ Ha He) as [H|H]; [left; apply wr_ingc; auto|].
      right. intros g Hg. destruct (Nat.eq_dec x o) as [->|Hxo]; [|apply wr_genx in Hg; eauto].
      destruct Hold as [Hf|[_ [Hfo Hco]]].
      + (* a traversed object cannot refer to an object that did not exist *)
        exfalso. assert (Hna : nf h a).
        { apply rch_in in Ha. destruct Ha as [Ha|Ha]; eapply listed_nf; eauto; discriminate. }
        destruct (i_edge _ _ _ _ I _ _ Hna He) as [[Hm _] _]. apply Hm. apply wr_new; auto.
      + destruct Hg as [b [Hb Hg]]. rewrite wr_mem_o in Hb. injection Hb as <-.
        assert (Hc : gcobj (mem h) o) by (apply Hco; eauto).
        destruct Hc as [g0 Hg0]. destruct (H _ Hg0) as [Hlt|Heq].
        * left. destruct Hloc as [[E [_ Hal]]|[[p E] _]]; [|congruence].
          destruct (i_listed _ _ _ _ I o) as [l Hl]; [exists g0; auto|].
          rewrite (Hal _ Hl) in Hl. rewrite (i_all _ _ _ _ I _ _ _ Hd Hl Hg0) in Hlt. congruence.
        * right. destruct Hloc as [[E [_ Hal]]|[[p E] _]]; [|congruence].
          destruct (i_listed _ _ _ _ I o) as [l Hl]; [exists g0; auto|].
          rewrite (Hal _ Hl) in Hl. rewrite (i_all _ _ _ _ I _ _ _ Hd Hl Hg0) in Heq. congruence.
    - intros x g Hx Hn Hg. apply wr_rchf in Hx. rewrite wr_ingc in Hn.
      assert (x <> o) by (intros ->; eapply wr_rchf_o; eauto).
      apply wr_genx in Hg; auto. eapply i_g3; eauto.
    - intros e a x He Ha HC Hx. rewrite wr_Cf in *. destruct (Nat.eq_dec a o) as [->|Hao].
      + destruct (wr_edge_o _ Hx) as [_ [_ [H _]]]. auto.
      + apply wr_edge in Hx; auto. apply wr_nf in Ha. destruct Ha as [Ha|]; [|contradiction].
        eapply i_T; eauto.
    - intros e e' x He He' Hr. rewrite wr_Cf. apply (i_Troot _ _ _ _ I _ e'); auto.
    - intros a x Ha HC Hx. rewrite wr_Cg in *. destruct (Nat.eq_dec a o) as [->|Hao].
      + destruct (wr_edge_o _ Hx) as [_ [_ [_ H]]]. auto.
      + apply wr_edge in Hx; auto. apply wr_nf in Ha. destruct Ha as [Ha|]; [|contradiction].
        eapply i_Tg; eauto.
    - intros e x He Hr. rewrite wr_Cg. eapply i_Tgroot; eauto.
    - apply (i_gf _ _ _ _ I).
    - apply (i_ggen _ _ _ _ I).
    - apply (i_gmax _ _ _ _ I).
    - apply (i_gmin _ _ _ _ I).
    - apply (i_nint _ _ _ _ I).
    - intros Hi. destruct (i_int _ _ _ _ I Hi) as [H1 [H2 H3]]. split; [auto|split; [|auto]].
      intros x Hx. rewrite !wr_inl by discriminate. auto.
    - apply (i_next _ _ _ _ I).
    - intros e x He Hx. rewrite !wr_inl in Hx by discriminate. eapply (i_work _ _ _ _ I); eauto.
  Qed.
End write.

(** ** Extension of the heap: existing objects keep their contents *)

Definition loc_ext (a b : loc) : Prop :=
  match a, b with
  | LGc _, LGc _ => True
  | LStack p d, LStack q e => d = e /\ (forall g, p = Some g -> q = Some g)
  | _, _ => False
  end.
Definition obj_ext (a b : obj) : Prop :=
  okind a = okind b /\ ofields a = ofields b /\ loc_ext (oloc a) (oloc b).

(** ... as far as the addresses below [n] are concerned. *)
Record extn (n : nat) (h h' : heap) : Prop := {
  e_top : top h' = top h;
  e_frames : frames h' = frames h;
  e_fresh : fresh h <= fresh h';
  e_mem : forall x a, x < n -> mem h x = Some a -> mem h' x = None \/ exists b, mem h' x = Some b /\ obj_ext a b;
  e_none : forall x, x < n -> mem h x = None -> mem h' x = None
}.
Definition ext (h h' : heap) : Prop := extn (fresh h) h h'.

Lemma obj_ext_refl a : obj_ext a a.
Proof.
  unfold obj_ext, loc_ext. repeat split; auto. destruct (oloc a); auto.
Qed.
Lemma obj_ext_trans a b c : obj_ext a b -> obj_ext b c -> obj_ext a c.
Proof.
  unfold obj_ext, loc_ext. intros [H1 [H2 H3]] [H4 [H5 H6]]. repeat split; try congruence.
  destruct (oloc a), (oloc b), (oloc c); try tauto. destruct H3, H6. split; [congruence|auto].
Qed.
Lemma obj_geq_ext a b : obj_geq a b -> obj_ext a b.
Proof.
  intros [H1 [H2 H3]]. repeat split; auto. unfold loc_ext.
  destruct H3 as [H3|[g [g' [H3 H4]]]].
  - rewrite H3. destruct (oloc b); auto.
  - rewrite H3, H4. auto.
Qed.

Lemma ext_refl h : ext h h.
Proof. constructor; auto. intros x a _ H. right. exists a. split; auto. apply obj_ext_refl. Qed.
Lemma extn_trans n h1 h2 h3 : extn n h1 h2 -> extn n h2 h3 -> extn n h1 h3.
Proof.
  intros [A1 A2 A3 A4 A5] [B1 B2 B3 B4 B5]. constructor; try congruence; try lia; auto.
  intros x a Hx H. destruct (A4 _ _ Hx H) as [H'|[b [H' Hb]]]; auto.
  destruct (B4 x b) as [H''|[c [H'' Hc]]]; auto. right. exists c. split; auto.
  eapply obj_ext_trans; eauto.
Qed.
Lemma extn_le n m h h' : extn n h h' -> m <= n -> extn m h h'.
Proof.
  intros [A1 A2 A3 A4 A5] H. constructor; auto.
  - intros x a Hx. apply A4. lia.
  - intros x Hx. apply A5. lia.
Qed.
Lemma ext_trans h1 h2 h3 : ext h1 h2 -> ext h2 h3 -> ext h1 h3.
Proof.
  intros A B. eapply extn_trans; [exact A|]. eapply extn_le; [exact B|]. apply (e_fresh _ _ _ A).
Qed.

Lemma quiet_ext h h' : quiet h h' -> ext h h'.
Proof.
  intros [A1 A2 A3 A4 A5]. constructor; auto; try lia.
  intros x a _ H. destruct (A4 _ _ H) as [H'|[b [H' Hb]]]; auto. right. exists b. split; auto.
  apply obj_geq_ext; auto.
Qed.

(** An object that is still there has its old contents. *)
Lemma ext_get h h' R P B x a : ext h h' -> Inv h R P B -> mem h x = Some a -> nf h' x ->
  exists b, mem h' x = Some b /\ obj_ext a b.
Proof.
  intros E I Hm [Hn _]. destruct (e_mem _ _ _ E x a) as [H|H]; auto.
  - eapply i_fresh; eauto.
  - congruence.
Qed.

(** ** Allocation of a GC object *)

Lemma alloc_inv h R P B d k fs : Inv h R P B -> d <= top h -> (forall x, ~ In (VObj x) fs) ->
  let o := fresh h in
  let h2 := set_mem (set_fresh h (S o)) (upd (mem h) o (Some (mk_obj k fs (LGc (gen (frames h d)))))) in
  let h' := set_lists h2 (updl (lists h2) (All d) (o :: lists h2 (All d))) in
  Inv h' R P ((o, d) :: B) /\ gv h' d (VObj o) /\ ext h h' /\ inl h' (All d) o /\
  (forall e v, gv h e v -> gv h' e v).
Proof.
  intros I Hd Hfs o h2 h'.
  set (ob := mk_obj k fs (LGc (gen (frames h d)))) in *.
  assert (Hno : mem h o = None).
  { destruct (mem h o) as [b|] eqn:E; auto. pose proof (i_fresh _ _ _ _ I _ _ E). unfold o in *. lia. }
  assert (Hnl : forall l, ~ inl h l o).
  { intros l Hl. destruct (i_gcobj _ _ _ _ I _ _ Hl) as [g [b [Hb _]]]. congruence. }
  assert (Hl : forall l x, inl h' l x <-> inl h l x \/ (l = All d /\ x = o)).
  { intros l x. unfold inl, h', h2, updl; cbn [lists set_lists set_mem set_fresh].
    destruct (lid_eq_dec l (All d)) as [->|Hn]; cbn [In]; intuition congruence. }
  assert (Hloc : (oloc ob = LGc (gen (frames h d)) /\
                   (forall l x, inl h' l x <-> inl h l x \/ (l = All d /\ x = o)) /\
                   (forall l, inl h l o -> l = All d))
               \/ ((exists p, oloc ob = LStack p d) /\ kind_ok (okind ob) /\
                   (forall l x, inl h' l x <-> inl h l x) /\
                   (forall y d', In (VObj y) (ofields ob) -> stackobj (mem h) y d' -> y < o))).
  { left. split; [reflexivity|]. split; [exact Hl|]. intros l H. exfalso. eapply Hnl; eauto. }
  assert (Hnd : forall l, NoDup (lists h' l)).
  { intros l. unfold h', h2, updl; cbn [lists set_lists set_mem set_fresh].
    destruct (lid_eq_dec l (All d)) as [->|Hn]; [|apply (i_nodup _ _ _ _ I)].
    constructor; [apply Hnl|apply (i_nodup _ _ _ _ I)]. }
  assert (Hold : (fresh h <= o) \/ (nf h o /\ fr h o d /\ (gcobj (mem h) o <-> exists g, oloc ob = LGc g))).
  { left. auto. }
  assert (Hfo : fresh h <= fresh h' /\ o < fresh h') by (cbn; unfold o; lia).
  split.
  - apply (write_inv (h' := h') I o d ob Hd); auto.
    + intros x [H|[d' H]]; [|discriminate]. exfalso. eapply Hfs; eauto.
    + intros x _ H. exfalso. eapply Hfs; eauto.
    + intros x d' H; discriminate.
    + intros _. cbn; auto.
    + intros b e Hb. cbn; auto.
    + intros b e [E|Hb]; [|auto]. injection E as <- <-. right. repeat split; auto. eexists; reflexivity.
    + intros e He Hp. exfalso. destruct (i_pend _ _ _ _ I _ _ He Hp) as [H _]. eapply Hnl; eauto.
  - split; [|split; [|split]].
    + apply (wr_gv_o (h' := h') I o d ob Hd); auto.
    + constructor; try reflexivity.
      * cbn. lia.
      * intros x a Hx Hm. right. exists a. cbn [mem h' h2 set_lists set_mem]. unfold upd.
        destruct (Nat.eq_dec x o); [unfold o in *; lia|]. split; auto. apply obj_ext_refl.
      * intros x Hx Hm. cbn [mem h' h2 set_lists set_mem]. unfold upd.
        destruct (Nat.eq_dec x o); [unfold o in *; lia|]. auto.
    + apply Hl. auto.
    + intros e v Hv. apply (wr_gv (h' := h') I o d ob Hd); auto.
Qed.

Lemma drop_B h R P B o d : Inv h R P ((o, d) :: B) ->
  (forall ob, mem h o = Some ob -> ~ In VUninit (ofields ob)) -> Inv h R P B.
Proof.
  intros I H. destruct I as [[]]. constructor; auto. constructor; auto.
  - intros x ob Hn Hm Hu. destruct (i_uninit _ _ Hn Hm Hu) as [e [He|He]]; eauto.
    injection He as -> ->. exfalso. eapply H; eauto.
  - intros b e Hb. apply i_B. cbn; auto.
Qed.

Lemma new_gc_inv h R P B d k fs : Inv h R P B -> d <= top h -> (forall x, ~ In (VObj x) fs) ->
  exists h' o, new_gc h d k fs = Some (h', o) /\ Inv h' R P ((o, d) :: B) /\ gv h' d (VObj o) /\
    ext h h' /\ inl h' (All d) o /\
    mem h' o = Some (mk_obj k fs (LGc (gen (frames h d)))) /\ fresh h <= o /\
    (forall x a b, x < fresh h -> mem h x = Some a -> mem h' x = Some b -> obj_geq a b).
Proof.
  intros I Hd Hfs. unfold new_gc.
  destruct (incr_gc_inv _ _ _ _ I) as [h1 [-> [I1 Q1]]].
  assert (Hd1 : d <= top h1) by (rewrite (q_top _ _ Q1); auto).
  destruct (alloc_inv h1 R P B d k fs I1 Hd1 Hfs) as [A1 [A2 [A3 [A4 A5]]]].
  eexists _, _. split; [reflexivity|].
  split; [exact A1|]. split; [exact A2|]. split; [|split; [exact A4|split]].
  - eapply ext_trans; [apply quiet_ext; eauto|exact A3].
  - cbn [mem set_lists set_mem]. unfold upd. destruct (Nat.eq_dec (fresh h1) (fresh h1)); [|congruence].
    rewrite (q_frames _ _ Q1). reflexivity.
  - split; [rewrite (q_fresh _ _ Q1); lia|].
    intros x a b Hx Ha Hb. cbn [mem set_lists set_mem] in Hb. unfold upd in Hb.
    rewrite (q_fresh _ _ Q1) in Hb. destruct (Nat.eq_dec x (fresh h)); [lia|].
    destruct (q_mem _ _ Q1 _ _ Ha) as [H|[c [H Hc]]]; [congruence|].
    assert (c = b) by congruence. subst c. auto.
Qed.

(** ** Assigning a field *)

Lemma in_set_nth vs i v u : In u (set_nth vs i v) -> In u vs \/ u = v.
Proof.
  revert i. induction vs as [|x vs IH]; intros i; cbn [set_nth]; [auto|].
  destruct i; cbn [In]; intros [H|H]; auto. destruct (IH _ H); auto.
Qed.

Lemma set_nth_length vs i v : length (set_nth vs i v) = length vs.
Proof. revert i. induction vs as [|x vs IH]; intros [|i]; cbn; auto. Qed.

Definition gcval (m : nat -> option obj) (v : value) : Prop :=
  match v with VObj x => gcobj m x | VUninit => False | _ => True end.

Lemma set_field_inv h R P B o d i v : Inv h R P B -> inl h (All d) o ->
  gv h d v -> gcval (mem h) v ->
  Inv (set_field h o i v) R P B /\ (forall e u, gv h e u -> gv (set_field h o i v) e u).
Proof.
  intros I Ho Hv Hgv.
  destruct (i_gcobj _ _ _ _ I _ _ Ho) as [g [ob [Hob Hlo]]].
  assert (Hfo : fr h o d) by (right; right; left; auto).
  assert (Hd : d <= top h) by (eapply fr_top; eauto).
  assert (Hno : nf h o) by (eapply listed_nf; eauto; discriminate).
  unfold set_field. rewrite Hob.
  assert (Hg : g = gen (frames h d)) by (eapply i_all; eauto; exists ob; auto).
  set (ob' := mk_obj (okind ob) (set_nth (ofields ob) i v) (oloc ob)) in *.
  set (h' := set_mem h (upd (mem h) o (Some ob'))).
  assert (Hold : (fresh h <= o) \/ (nf h o /\ fr h o d /\ (gcobj (mem h) o <-> exists g, oloc ob' = LGc g))).
  { right. split; [auto|]. split; [auto|]. split; intros _; [eauto|]. exists g, ob; auto. }
  assert (Hloc : (oloc ob' = LGc (gen (frames h d)) /\
                   (forall l x, inl h' l x <-> inl h l x \/ (l = All d /\ x = o)) /\
                   (forall l, inl h l o -> l = All d))
               \/ ((exists p, oloc ob' = LStack p d) /\ kind_ok (okind ob') /\
                   (forall l x, inl h' l x <-> inl h l x) /\
                   (forall y d', In (VObj y) (ofields ob') -> stackobj (mem h) y d' -> y < o))).
  { left. split; [cbn; congruence|]. split.
    - intros l x. change (inl h' l x) with (inl h l x). split; [auto|]. intros [H|[-> ->]]; auto.
    - intros l Hl. eapply i_uniq; eauto. }
  assert (Hfr : fresh h <= fresh h' /\ o < fresh h').
  { cbn. split; auto. eapply i_fresh; eauto. }
  split.
  - apply (write_inv (h' := h') I o d ob' Hd); auto.
    + apply (i_nodup _ _ _ _ I).
    + intros x [H|[d' H]]; [|cbn in H; congruence]. cbn in H. apply in_set_nth in H.
      destruct H as [H|H].
      * assert (gv h d (VObj o)).
        { cbn. split; [auto|]. split; [exists d; auto|]. split.
          - intros F HF Hu. exfalso. destruct Hu as [Hu|[_ [_ [Hu|Hu]]]];
              pose proof (i_uniq _ _ _ _ I _ _ _ Ho Hu); discriminate.
          - intros Hu. pose proof (i_uniq _ _ _ _ I _ _ _ Ho Hu); discriminate. }
        eapply gv_edge; eauto. exists ob; auto.
      * subst v. auto.
    + intros x _ H. cbn in H. apply in_set_nth in H. destruct H as [H|H].
      * eapply i_gcedge; eauto; [exists g, ob; auto|]. exists ob; auto.
      * subst v. exact Hgv.
    + intros x d' H. cbn in H. congruence.
    + intros H. cbn in H. apply in_set_nth in H. destruct H as [H|H]; [|subst v; contradiction].
      destruct (i_uninit _ _ _ _ I _ _ Hno Hob H) as [e He].
      pose proof (i_B _ _ _ _ I _ _ He) as He'.
      pose proof (i_uniq _ _ _ _ I _ _ _ Ho He') as E. injection E as <-. auto.
    + intros e He Hp. destruct (i_pend _ _ _ _ I _ _ He Hp) as [_ [b [w [Hb [Hk Hf]]]]].
      assert (b = ob) by congruence. subst b. split; [auto|]. cbn [ofields ob'].
      rewrite Hf. destruct i; cbn; eauto.
  - intros e u Hu. apply (wr_gv (h' := h') I o d ob' Hd); auto.
Qed.

Lemma set_stack_gc_inv h R P B o d g ob : Inv h R P B ->
  mem h o = Some ob -> oloc ob = LStack None d ->
  gv h d (VObj g) -> gcobj (mem h) g ->
  Inv (set_stack_gc h o g) R P B /\ (forall e u, gv h e u -> gv (set_stack_gc h o g) e u).
Proof.
  intros I Hob Hlo Hv Hgv.
  assert (Hso : stackobj (mem h) o d) by (exists ob, None; auto).
  assert (Hfo : fr h o d) by (right; right; right; right; auto).
  assert (Hd : d <= top h) by (eapply fr_top; eauto).
  assert (Hnl : forall l, ~ inl h l o) by (intros l Hl; eapply (gc_not_stack I); eauto).
  assert (Hno : nf h o) by (split; [congruence|auto]).
  unfold set_stack_gc. rewrite Hob, Hlo.
  set (ob' := mk_obj (okind ob) (ofields ob) (LStack (Some g) d)) in *.
  set (h' := set_mem h (upd (mem h) o (Some ob'))).
  assert (Hold : (fresh h <= o) \/ (nf h o /\ fr h o d /\ (gcobj (mem h) o <-> exists g, oloc ob' = LGc g))).
  { right. split; [auto|]. split; [auto|]. split.
    - intros [g0 Hg0]. exfalso. eapply genx_stack; eauto.
    - intros [g0 Hg0]. discriminate. }
  destruct (i_stack _ _ _ _ I _ _ _ _ Hob Hlo) as [_ [Hk Hsf]].
  assert (Hloc : (oloc ob' = LGc (gen (frames h d)) /\
                   (forall l x, inl h' l x <-> inl h l x \/ (l = All d /\ x = o)) /\
                   (forall l, inl h l o -> l = All d))
               \/ ((exists p, oloc ob' = LStack p d) /\ kind_ok (okind ob') /\
                   (forall l x, inl h' l x <-> inl h l x) /\
                   (forall y d', In (VObj y) (ofields ob') -> stackobj (mem h) y d' -> y < o))).
  { right. split; [eexists; reflexivity|]. split; [exact Hk|]. split; [reflexivity|exact Hsf]. }
  assert (Hfr : fresh h <= fresh h' /\ o < fresh h').
  { cbn. split; auto. eapply i_fresh; eauto. }
  split.
  - apply (write_inv (h' := h') I o d ob' Hd); auto.
    + apply (i_nodup _ _ _ _ I).
    + intros x [H|[d' H]].
      * assert (gv h d (VObj o)).
        { cbn. split; [auto|]. split; [exists d; auto|]. split.
          - intros F HF Hu. exfalso. destruct Hu as [Hu|[_ [_ [Hu|Hu]]]]; eapply Hnl; eauto.
          - intros Hu. exfalso. eapply Hnl; eauto. }
        eapply gv_edge; eauto. exists ob; auto.
      * cbn in H. injection H as <- <-. auto.
    + intros x [g0 H]. discriminate.
    + intros x d' H. cbn in H. injection H as <- <-. auto.
    + intros H. destruct (i_uninit _ _ _ _ I _ _ Hno Hob H) as [e He].
      pose proof (i_B _ _ _ _ I _ _ He) as He'. exfalso. eapply Hnl; eauto.
    + intros e He Hp. exfalso. destruct (i_pend _ _ _ _ I _ _ He Hp) as [H _]. eapply Hnl; eauto.
  - intros e u Hu. apply (wr_gv (h' := h') I o d ob' Hd); auto.
Qed.

Lemma new_stack_inv h R P B k vs : Inv h R P B -> kind_ok k ->
  (forall v, In v vs -> gv h (top h) v) ->
  let h' := fst (new_stack h k vs) in let o := snd (new_stack h k vs) in
  Inv h' R P B /\ gv h' (top h) (VObj o) /\ (forall e u, gv h e u -> gv h' e u) /\ ext h h'.
Proof.
  intros I Hk Hvs. unfold new_stack. cbn [fst snd].
  set (o := fresh h). set (d := top h).
  set (ob := mk_obj k vs (LStack None d)).
  set (h' := set_mem (set_fresh h (S o)) (upd (mem h) o (Some ob))).
  assert (Hd : d <= top h) by (unfold d; lia).
  assert (Hno : mem h o = None).
  { destruct (mem h o) as [b|] eqn:E; auto. pose proof (i_fresh _ _ _ _ I _ _ E). unfold o in *. lia. }
  assert (Hnl : forall l, ~ inl h l o).
  { intros l Hl. destruct (i_gcobj _ _ _ _ I _ _ Hl) as [g [b [Hb _]]]. congruence. }
  assert (Hold : (fresh h <= o) \/ (nf h o /\ fr h o d /\ (gcobj (mem h) o <-> exists g, oloc ob = LGc g))).
  { left. auto. }
  assert (Hloc : (oloc ob = LGc (gen (frames h d)) /\
                   (forall l x, inl h' l x <-> inl h l x \/ (l = All d /\ x = o)) /\
                   (forall l, inl h l o -> l = All d))
               \/ ((exists p, oloc ob = LStack p d) /\ kind_ok (okind ob) /\
                   (forall l x, inl h' l x <-> inl h l x) /\
                   (forall y d', In (VObj y) (ofields ob) -> stackobj (mem h) y d' -> y < o))).
  { right. split; [eexists; reflexivity|]. split; [exact Hk|]. split; [reflexivity|].
    intros y d' _ [b [p [Hb _]]]. apply (i_fresh _ _ _ _ I _ _ Hb). }
  assert (Hfr : fresh h <= fresh h' /\ o < fresh h') by (cbn; unfold o; lia).
  split; [|split; [|split]].
  - apply (write_inv (h' := h') I o d ob Hd); auto.
    + apply (i_nodup _ _ _ _ I).
    + intros x [H|[d' H]]; [|discriminate]. apply Hvs. exact H.
    + intros x [g0 H]. discriminate.
    + intros x d' H. discriminate.
    + intros H. exfalso. apply (Hvs VUninit). exact H.
    + intros e He Hp. exfalso. destruct (i_pend _ _ _ _ I _ _ He Hp) as [H _]. eapply Hnl; eauto.
  - apply (wr_gv_o (h' := h') I o d ob Hd); auto.
  - intros e u Hu. apply (wr_gv (h' := h') I o d ob Hd); auto.
  - constructor; try reflexivity.
    * cbn. lia.
    * intros x a Hx Hm. right. exists a. cbn [mem h' set_mem]. unfold upd.
      destruct (Nat.eq_dec x o); [unfold o in *; lia|]. split; auto. apply obj_ext_refl.
    * intros x Hx Hm. cbn [mem h' set_mem]. unfold upd.
      destruct (Nat.eq_dec x o); [unfold o in *; lia|]. auto.
Qed.

(** ** GcRealloc *)

Lemma all_gv h R P B d x : Inv h R P B -> inl h (All d) x -> gv h d (VObj x).
Proof.
  intros I Ho. cbn. split; [eapply listed_nf; eauto; discriminate|].
  split; [exists d; split; auto; right; right; left; auto|]. split.
  - intros F HF Hu. exfalso. destruct Hu as [Hu|[_ [_ [Hu|Hu]]]];
      pose proof (i_uniq _ _ _ _ I _ _ _ Ho Hu); discriminate.
  - intros Hu. pose proof (i_uniq _ _ _ _ I _ _ _ Ho Hu); discriminate.
Qed.

Definition fields_loop (rec : heap -> value -> option (heap * value)) (g : nat) :=
  fix fields (h : heap) (i : nat) (vs : list value) {struct vs} : option (heap * value) :=
    match vs with
    | [] => Some (h, VObj g)
    | x :: vs' =>
      match rec h x with
      | None => None
      | Some (h', x') => fields (set_field h' g i x') (S i) vs'
      end
    end.

Lemma gc_realloc_stack fuel h o ob d : mem h o = Some ob -> oloc ob = LStack None d ->
  kind_ok (okind ob) ->
  gc_realloc (S fuel) h (VObj o) =
  match new_gc h d (okind ob) (repeat VUninit (length (ofields ob))) with
  | None => None
  | Some (h1, g) => fields_loop (gc_realloc fuel) g (set_stack_gc h1 o g) 0 (ofields ob)
  end.
Proof.
  intros H1 H2 H3. cbn [gc_realloc]. rewrite H1, H2.
  destruct (okind ob); try contradiction; reflexivity.
Qed.

Lemma set_nth_app done x rest v : set_nth (done ++ x :: rest) (length done) v = done ++ v :: rest.
Proof. induction done as [|a done IH]; cbn; [auto|]. rewrite IH. auto. Qed.

Lemma stackobj_back n h h' x e : extn n h h' -> x < n -> mem h x <> None ->
  stackobj (mem h') x e -> stackobj (mem h) x e.
Proof.
  intros E Hx Hm [b [p [Hb Hp]]]. destruct (mem h x) as [a|] eqn:Ea; [|congruence].
  destruct (e_mem _ _ _ E _ _ Hx Ea) as [H|[b' [H [_ [_ Hl]]]]]; [congruence|].
  assert (b' = b) by congruence. subst b'. rewrite Hp in Hl. unfold loc_ext in Hl.
  destruct (oloc a) as [q d|g] eqn:El; [|tauto]. destruct Hl as [-> _]. exists a, q. auto.
Qed.

Lemma gcobj_fwd n h h' R P B x : extn n h h' -> x < n -> Inv h' R P B -> nf h' x ->
  gcobj (mem h) x -> gcobj (mem h') x.
Proof.
  intros E Hx I [Hn _] [g [a [Ha Hg]]].
  destruct (e_mem _ _ _ E _ _ Hx Ha) as [H|[b [H [_ [_ Hl]]]]]; [congruence|].
  rewrite Hg in Hl. unfold loc_ext in Hl. destruct (oloc b) as [|g'] eqn:El; [tauto|].
  exists g', b. auto.
Qed.

Definition realloc_spec (rec : heap -> value -> option (heap * value)) (fuel : nat) : Prop :=
  forall h R P B d v, Inv h R P B -> d <= top h -> gv h d v ->
    (forall x e, v = VObj x -> stackobj (mem h) x e -> x < fuel) ->
    exists h' v', rec h v = Some (h', v') /\ Inv h' R P B /\ ext h h' /\ gv h' d v' /\
      gcval (mem h') v'.

Lemma fields_loop_inv rec fuel g d R P B : realloc_spec rec fuel ->
  forall vs h i done og,
    Inv h R P ((g, d) :: B) -> d <= top h ->
    (forall v, In v vs -> In v (R d)) ->
    (forall x e, In (VObj x) vs -> stackobj (mem h) x e -> x < fuel) ->
    mem h g = Some og -> ofields og = done ++ repeat VUninit (length vs) ->
    length done = i -> ~ In VUninit done ->
    exists h', fields_loop rec g h i vs = Some (h', VObj g) /\
      Inv h' R P B /\ extn g h h' /\ inl h' (All d) g /\ gcobj (mem h') g.
Proof.
  intros IH. induction vs as [|v vs IHvs]; intros h i done og I Hd Hin Hst Hg Hf Hi Hu.
  - cbn [fields_loop]. exists h. split; [reflexivity|].
    assert (Hal : inl h (All d) g) by (eapply (i_B _ _ _ _ I); cbn; auto).
    split; [|split; [|split; [auto|eapply i_gcobj; eauto]]].
    + eapply drop_B; eauto. intros ob Hob. assert (ob = og) by congruence. subst ob.
      rewrite Hf. cbn [length repeat]. rewrite app_nil_r. auto.
    + eapply extn_le; [apply ext_refl|]. eapply Nat.lt_le_incl, i_fresh; eauto.
  - cbn [fields_loop].
    assert (Hgv : gv h d v) by (eapply root_gv; eauto; apply Hin; cbn; auto).
    destruct (IH h R P ((g, d) :: B) d v I Hd Hgv) as [h1 [v1 [-> [I1 [E1 [Hgv1 Hgc1]]]]]].
    { intros x e -> Hs. eapply Hst; eauto. cbn; auto. }
    assert (Hal : inl h1 (All d) g) by (eapply (i_B _ _ _ _ I1); cbn; auto).
    assert (Hnf : nf h1 g) by (eapply listed_nf; eauto; discriminate).
    assert (Hgf : g < fresh h) by (eapply i_fresh; eauto).
    destruct (ext_get _ _ _ _ _ _ _ E1 I Hg Hnf) as [og1 [Hog1 [Hk1 [Hf1 Hl1]]]].
    destruct (set_field_inv h1 R P ((g, d) :: B) g d i v1 I1 Hal Hgv1 Hgc1) as [I2 G2].
    assert (Hs2 : mem (set_field h1 g i v1) g = Some (mk_obj (okind og1) (set_nth (ofields og1) i v1) (oloc og1))).
    { unfold set_field. rewrite Hog1. cbn [mem set_mem]. unfold upd.
      destruct (Nat.eq_dec g g); congruence. }
    assert (Hx2 : extn g h1 (set_field h1 g i v1)).
    { unfold set_field. rewrite Hog1. constructor; auto; cbn [mem set_mem]; intros x; unfold upd;
        destruct (Nat.eq_dec x g); try lia.
      - intros a _ Ha. right. exists a. split; auto. apply obj_ext_refl.
      - auto. }
    destruct (IHvs (set_field h1 g i v1) (S i) (done ++ [v1])
               (mk_obj (okind og1) (set_nth (ofields og1) i v1) (oloc og1)))
      as [h' [H1 [H2 [H3 H4]]]]; auto.
    + unfold set_field. rewrite Hog1. cbn [top set_mem]. rewrite (e_top _ _ _ E1). auto.
    + intros w Hw. apply Hin. cbn; auto.
    + intros x e Hx Hs.
      assert (Hs1 : stackobj (mem h1) x e).
      { destruct (Nat.eq_dec x g) as [->|Hn].
        - exfalso. destruct Hs as [b [p [Hb Hp]]]. rewrite Hs2 in Hb. injection Hb as <-. cbn in Hp.
          destruct (i_gcobj _ _ _ _ I1 _ _ Hal) as [g0 [b [Hb Hg0]]]. congruence.
        - unfold set_field in Hs. rewrite Hog1 in Hs. unfold stackobj in Hs. cbn [mem set_mem] in Hs.
          unfold upd in Hs. destruct (Nat.eq_dec x g); [contradiction|]. exact Hs. }
      assert (Hr : In (VObj x) (R d)) by (apply Hin; cbn; auto).
      destruct (i_root _ _ _ _ I _ _ Hd Hr) as [[Hm _] _].
      eapply Hst; [cbn; eauto|]. eapply stackobj_back; eauto.
      destruct (mem h x) as [a|] eqn:Ea; [|congruence]. eapply i_fresh; eauto.
    + cbn [ofields]. rewrite <- Hf1, Hf. subst i. cbn [length repeat].
      rewrite set_nth_app, <- app_assoc. reflexivity.
    + rewrite app_length. cbn. lia.
    + intros Hx. apply in_app_iff in Hx. destruct Hx as [Hx|[Hx|[]]]; auto. subst v1. exact Hgv1.
    + exists h'. split; [exact H1|]. split; [exact H2|]. split; [|exact H4].
      eapply extn_trans; [eapply extn_le; [exact E1|lia]|]. eapply extn_trans; eauto.
Qed.

Lemma gc_realloc_leaf fuel h v : (forall x, v <> VObj x) -> v <> VUninit ->
  gc_realloc fuel h v = Some (h, v).
Proof. intros H1 H2. destruct v; destruct fuel; try reflexivity; congruence. Qed.

Lemma gc_realloc_gc fuel h o g : genx (mem h) o g -> gc_realloc fuel h (VObj o) = Some (h, VObj o).
Proof. intros [ob [H1 H2]]. destruct fuel; cbn [gc_realloc]; rewrite H1, H2; reflexivity. Qed.

Lemma gc_realloc_inv fuel : realloc_spec (gc_realloc fuel) fuel.
Proof.
  induction fuel as [fuel IH] using lt_wf_ind. intros h R P B d v I Hd Hv Hfuel.
  assert (Hcase : (exists o, v = VObj o) \/ ((forall x, v <> VObj x) /\ v <> VUninit)).
  { destruct v; try (right; split; [intros; discriminate|discriminate]); [left; eauto|contradiction]. }
  destruct Hcase as [[o ->]|[Hn1 Hn2]].
  2:{ exists h, v. rewrite gc_realloc_leaf by auto. split; [reflexivity|]. split; [exact I|].
      split; [apply ext_refl|]. split; [exact Hv|]. destruct v; try exact Logic.I; [congruence|contradiction]. }
  pose proof Hv as Hv0. destruct Hv as [[Hm Hnf] [Hfr [HC HG]]].
  destruct (mem h o) as [ob|] eqn:Eo; [|congruence]. clear Hm.
  destruct (oloc ob) as [p e|g] eqn:El.
  2:{ exists h, (VObj o). rewrite (gc_realloc_gc fuel h o g) by (exists ob; auto).
      split; [reflexivity|].
      split; [exact I|]. split; [apply ext_refl|]. split; [exact Hv0|]. exists g, ob; auto. }
  assert (Hso : stackobj (mem h) o e) by (exists ob, p; auto).
  assert (Hfo : fr h o e) by (right; right; right; right; auto).
  assert (Hed : e <= d) by (eapply (frle_fr I); eauto).
  destruct p as [q|].
  { exists h, (VObj q). split; [destruct fuel; cbn [gc_realloc]; rewrite Eo, El; reflexivity|].
    split; [exact I|]. split; [apply ext_refl|].
    split; [eapply gv_edge; eauto; exists ob; eauto|]. cbn. eapply i_gcptr; eauto. }
  assert (Hlt : o < fuel) by (eapply Hfuel; eauto).
  destruct fuel as [|fuel]; [lia|].
  destruct (i_stack _ _ _ _ I _ _ _ _ Eo El) as [Het [Hk Hsf]].
  rewrite (gc_realloc_stack fuel h o ob e Eo El Hk).
  assert (Hno : nf h o) by (split; congruence).
  assert (Hve : gv h e (VObj o)).
  { cbn. split; [exact Hno|]. split; [exists e; auto|]. auto. }
  assert (Hflds : forall u, In u (ofields ob) -> gv h e u).
  { intros u Hu. destruct u as [| |x|]; try exact Logic.I.
    - eapply gv_edge; eauto. exists ob; auto.
    - destruct (i_uninit _ _ _ _ I o ob) as [b Hb]; auto.
      pose proof (i_B _ _ _ _ I _ _ Hb) as Hb'. eapply (gc_not_stack I); eauto. }
  assert (I' : Inv h (radd R e (VObj o :: ofields ob)) P B).
  { apply inv_radd; auto. intros u [<-|Hu]; auto. }
  set (R' := radd R e (VObj o :: ofields ob)) in *.
  assert (HR' : forall u, In u (VObj o :: ofields ob) -> In u (R' e)).
  { intros u Hu. unfold R'. rewrite in_radd. auto. }
  destruct (new_gc_inv h R' P B e (okind ob) (repeat VUninit (length (ofields ob))) I' Het)
    as [h1 [g [-> [I1 [Hg1 [E1 [Hal [Hmg [Hgf Hgq]]]]]]]]].
  { intros x Hx. apply repeat_spec in Hx. discriminate. }
  assert (Hof : o < fresh h) by (eapply i_fresh; eauto).
  assert (Het1 : e <= top h1) by (rewrite (e_top _ _ _ E1); auto).
  assert (Ho1 : nf h1 o).
  { destruct (i_root _ _ _ _ I1 e o Het1) as [H _]; auto. apply HR'. cbn; auto. }
  destruct (ext_get _ _ _ _ _ _ _ E1 I Eo Ho1) as [ob1 [Hob1 _]].
  destruct (Hgq _ _ _ Hof Eo Hob1) as [Hk1 [Hf1 Hl1]].
  assert (Hlo1 : oloc ob1 = LStack None e).
  { destruct Hl1 as [Hl1|[g1 [g2 [Hl1 _]]]]; congruence. }
  assert (Hgo : gcobj (mem h1) g) by (eapply i_gcobj; eauto).
  destruct (set_stack_gc_inv h1 R' P ((g, e) :: B) o e g ob1 I1 Hob1 Hlo1 Hg1 Hgo) as [I2 G2].
  set (h2 := set_stack_gc h1 o g) in *.
  assert (Hgo2 : g <> o) by lia.
  assert (Hm2 : mem h2 = upd (mem h1) o (Some (mk_obj (okind ob1) (ofields ob1) (LStack (Some g) e)))).
  { unfold h2, set_stack_gc. rewrite Hob1, Hlo1. reflexivity. }
  assert (Ht2 : top h2 = top h1 /\ frames h2 = frames h1 /\ fresh h2 = fresh h1).
  { unfold h2, set_stack_gc. rewrite Hob1, Hlo1. auto. }
  destruct Ht2 as [Ht2 [Hfr2 Hfs2]].
  assert (E2 : ext h1 h2).
  { constructor; auto; [lia|..].
    - intros x a _ Ha. right. rewrite Hm2. unfold upd. destruct (Nat.eq_dec x o) as [->|Hx].
      + eexists. split; [reflexivity|]. assert (a = ob1) by congruence. subst a.
        split; [auto|]. split; [auto|]. cbn [oloc]. unfold loc_ext. rewrite Hlo1. split; auto. discriminate.
      + exists a. split; auto. apply obj_ext_refl.
    - intros x _ Ha. rewrite Hm2. unfold upd. destruct (Nat.eq_dec x o) as [->|Hx]; [congruence|auto]. }
  destruct (fields_loop_inv (gc_realloc fuel) fuel g e R' P B (IH fuel (Nat.lt_succ_diag_r _))
             (ofields ob) h2 0 [] (mk_obj (okind ob) (repeat VUninit (length (ofields ob))) (LGc (gen (frames h e)))))
    as [h3 [-> [I3 [E3 [Hal3 Hg3]]]]].
  - exact I2.
  - rewrite Ht2. auto.
  - intros u Hu. apply HR'. cbn; auto.
  - intros x e' Hx Hs.
    assert (Hs0 : stackobj (mem h) x e').
    { destruct (Hflds (VObj x) Hx) as [[Hmx _] _].
      assert (Hxf : x < fresh h).
      { destruct (mem h x) as [a|] eqn:Ea; [|congruence]. eapply i_fresh; eauto. }
      eapply stackobj_back; [exact E1|auto|auto|]. eapply stackobj_back; [exact E2| |..]; auto.
      - pose proof (e_fresh _ _ _ E1). lia.
      - destruct (i_root _ _ _ _ I1 e x Het1) as [[H _] _]; auto. apply HR'. cbn; auto. }
    specialize (Hsf _ _ Hx Hs0). lia.
  - rewrite Hm2. unfold upd. destruct (Nat.eq_dec g o); [congruence|]. exact Hmg.
  - reflexivity.
  - reflexivity.
  - auto.
  - exists h3, (VObj g). split; [reflexivity|]. split; [eapply inv_runadd; exact I3|].
    split; [|split; [|exact Hg3]].
    + unfold ext. eapply extn_trans; [exact E1|].
      eapply extn_trans; [eapply extn_le; [exact E2|eapply e_fresh; exact E1]|].
      eapply extn_le; [exact E3|exact Hgf].
    + eapply gv_le; [eapply all_gv; eauto|exact Hed].
Qed.
