(** * One step of the collector preserves the invariant. *)

From Coq Require Import Arith List Bool Lia.
From Verif Require Import GcModel GcInv.
Import ListNotations.

Definition edges_eq (m m' : nat -> option obj) : Prop := forall o x, edge m o x <-> edge m' o x.

Lemma rch_iff m m' (M M' U U' : nat -> Prop) x :
  (forall x, M x <-> M' x) -> (forall x, U x <-> U' x) -> edges_eq m m' ->
  (rch m M U x <-> rch m' M' U' x).
Proof.
  intros HM HU HE. split; apply rch_mono; intros; try (apply HM; auto; fail);
    try (apply HU; auto; fail); apply HE; auto.
Qed.

(** List surgery keeps the lists disjoint and duplicate free. *)
Definition lists_ok (h : heap) : Prop :=
  (forall l l' x, inl h l x -> inl h l' x -> l = l') /\ (forall l, NoDup (lists h l)).

Lemma lists_ok_move_to h dst o : lists_ok h -> lists_ok (move_to h dst o).
Proof.
  intros [Hu Hn]. split.
  - intros l l' x H1 H2. rewrite inl_move_to in *.
    destruct H1 as [[? ?]|[? ?]], H2 as [[? ?]|[? ?]]; subst; try congruence; eauto.
  - intros l. unfold move_to, set_lists; cbn [lists].
    destruct (lid_eq_dec l dst); [constructor|]; try apply nodup_rem; auto.
    rewrite in_rem. tauto.
Qed.

Lemma nodup_app {A} (a b : list A) : NoDup a -> NoDup b -> (forall x, In x a -> In x b -> False) ->
  NoDup (a ++ b).
Proof.
  intros Ha Hb Hd. induction Ha as [|x a Hx Ha IH]; cbn [app]; auto.
  constructor.
  - rewrite in_app_iff. intros [H|H]; [auto|]. apply (Hd x); cbn; auto.
  - apply IH. intros y Hy. apply Hd. cbn; auto.
Qed.

Lemma lists_ok_move_all h dst src : dst <> src -> lists_ok h -> lists_ok (move_all h dst src).
Proof.
  intros Hne [Hu Hn]. split.
  - intros l l' x H1 H2. rewrite inl_move_all in * by auto.
    destruct H1 as [[? [?|?]]|[? [? ?]]], H2 as [[? [?|?]]|[? [? ?]]]; subst; auto;
      try (exfalso; match goal with
        | A : inl h ?l x, B : inl h ?l' x |- _ => pose proof (Hu l l' x A B); congruence end).
    eapply Hu; eauto.
  - intros l. unfold move_all, set_lists, updl; cbn [lists].
    destruct (lid_eq_dec l src); [constructor|].
    destruct (lid_eq_dec l dst); [|auto]. apply nodup_app; auto.
    intros x H1 H2. apply Hne. eapply Hu; eauto.
Qed.

Lemma inv_lists_ok h R P B : Inv h R P B -> lists_ok h.
Proof. intros I. split; [apply (i_uniq _ _ _ _ I)|apply (i_nodup _ _ _ _ I)]. Qed.

(** ** Freeing one object of the free list *)

Lemma free_one_cases h : 
  (lists h GFree = [] /\ free_one h = h) \/
  exists o r, lists h GFree = o :: r /\
    free_one h = mk_heap (upd (mem h) o None) (fresh h) (updl (lists h) GFree r)
                         (frames h) (top h) (gc h) (o :: freed h).
Proof.
  unfold free_one, get. destruct (lists h GFree) as [|o r] eqn:E; [left; auto|right].
  exists o, r. split; [auto|]. reflexivity.
Qed.

Section free_one.
  Context {h : heap} {R : nat -> list value} {P : nat -> list nat} {B : list (nat * nat)}.
  Context (I : Inv h R P B) (o : nat) (r : list nat) (E : lists h GFree = o :: r).

  Let h' := mk_heap (upd (mem h) o None) (fresh h) (updl (lists h) GFree r)
                    (frames h) (top h) (gc h) (o :: freed h).

  Lemma fo_inl l x : l <> GFree -> (inl h' l x <-> inl h l x).
  Proof. intros Hl. unfold inl, h', updl; cbn [lists]. destruct (lid_eq_dec l GFree); tauto. Qed.

  Lemma fo_nodup : ~ In o r /\ NoDup r.
  Proof. pose proof (i_nodup _ _ _ _ I GFree) as H. rewrite E in H. inversion H; auto. Qed.

  Lemma fo_inl_free x : inl h' GFree x <-> inl h GFree x /\ x <> o.
  Proof.
    unfold inl, h', updl; cbn [lists]. destruct (lid_eq_dec GFree GFree); [|congruence].
    rewrite E. cbn [In]. pose proof fo_nodup as [Hn _]. intuition congruence.
  Qed.

  Lemma fo_inl_sub l x : inl h' l x -> inl h l x /\ x <> o.
  Proof.
    destruct (lid_eq_dec l GFree) as [->|Hl].
    - apply fo_inl_free.
    - intros H. rewrite fo_inl in H by auto. split; auto. intros ->.
      assert (Ho : inl h GFree o) by (unfold inl; rewrite E; cbn; auto).
      apply Hl. eapply i_uniq; eauto.
  Qed.

  Lemma fo_mem x : x <> o -> mem h' x = mem h x.
  Proof. intros H. unfold h', upd; cbn [mem]. destruct (Nat.eq_dec x o); congruence. Qed.

  Lemma fo_mem_o : mem h' o = None.
  Proof. unfold h', upd; cbn [mem]. destruct (Nat.eq_dec o o); congruence. Qed.

  Lemma fo_o_free : inl h GFree o.
  Proof. unfold inl; rewrite E; cbn; auto. Qed.

  Lemma fo_nf x : nf h' x <-> nf h x.
  Proof.
    split.
    - intros [H1 H2]. destruct (Nat.eq_dec x o) as [->|Hx]; [rewrite fo_mem_o in H1; congruence|].
      rewrite fo_mem in H1 by auto. split; auto. intros H3. apply H2. apply fo_inl_free; auto.
    - intros [H1 H2]. assert (Hx : x <> o) by (intros ->; apply H2, fo_o_free).
      split; [rewrite fo_mem by auto; auto|]. intros H3. apply H2. apply fo_inl_free; auto.
  Qed.

  Lemma fo_genx x g : genx (mem h') x g -> genx (mem h) x g.
  Proof.
    intros [ob [H1 H2]]. destruct (Nat.eq_dec x o) as [->|Hx]; [rewrite fo_mem_o in H1; congruence|].
    rewrite fo_mem in H1 by auto. exists ob; auto.
  Qed.
  Lemma fo_genx' x g : x <> o -> genx (mem h) x g -> genx (mem h') x g.
  Proof. intros Hx [ob H]. exists ob. rewrite fo_mem by auto. auto. Qed.

  Lemma fo_edge a b : edge (mem h') a b -> edge (mem h) a b.
  Proof.
    intros [ob [H1 H2]]. destruct (Nat.eq_dec a o) as [->|Hx]; [rewrite fo_mem_o in H1; congruence|].
    rewrite fo_mem in H1 by auto. exists ob; auto.
  Qed.
  Lemma fo_edge' a b : a <> o -> edge (mem h) a b -> edge (mem h') a b.
  Proof. intros Hx [ob H]. exists ob. rewrite fo_mem by auto. auto. Qed.

  Lemma fo_stackobj x d : stackobj (mem h') x d <-> stackobj (mem h) x d.
  Proof.
    split; intros [ob [p [H1 H2]]].
    - destruct (Nat.eq_dec x o) as [->|Hx]; [rewrite fo_mem_o in H1; congruence|].
      rewrite fo_mem in H1 by auto. exists ob, p; auto.
    - destruct (Nat.eq_dec x o) as [->|Hx].
      + exfalso. eapply (gc_not_stack I); [apply fo_o_free|]. exists ob, p; eauto.
      + exists ob, p. rewrite fo_mem by auto. auto.
  Qed.

  Lemma fo_Uf d x : Uf h' d x <-> Uf h d x.
  Proof. unfold Uf, ingc. rewrite !fo_inl by discriminate. reflexivity. Qed.
  Lemma fo_Mf d x : Mf h' d x <-> Mf h d x.
  Proof. unfold Mf. rewrite !fo_inl by discriminate. reflexivity. Qed.
  Lemma fo_ingc x : ingc h' x <-> ingc h x.
  Proof. unfold ingc. rewrite !fo_inl by discriminate. reflexivity. Qed.
  Lemma fo_fr x d : fr h' x d <-> fr h x d.
  Proof. unfold fr. rewrite !fo_inl, fo_stackobj by discriminate. reflexivity. Qed.
  Lemma fo_frle x d : frle h' x d <-> frle h x d.
  Proof. unfold frle. split; intros [d' [H1 H2]]; exists d'; rewrite fo_fr in *; auto. Qed.

  Lemma fo_not_o l x : l <> GFree -> inl h l x -> x <> o.
  Proof. intros Hl H ->. apply Hl. eapply i_uniq; eauto. apply fo_o_free. Qed.

  Lemma fo_save_not_o : g_int (gc h) = true -> forall x, In x (g_save (gc h)) -> x <> o.
  Proof.
    intros Hi x Hx. destruct (i_int _ _ _ _ I Hi) as [_ [Hs _]].
    destruct (Hs x Hx) as [H|[H|H]]; eapply fo_not_o; eauto; discriminate.
  Qed.

  Lemma fo_rchf d x : rchf h' d x <-> rchf h d x.
  Proof.
    split; apply rch_mono; intros.
    - apply fo_Mf; auto.
    - apply fo_Uf; auto.
    - apply fo_edge; auto.
    - apply fo_Mf; auto.
    - apply fo_Uf; auto.
    - apply fo_edge'; auto. apply rch_in in H. unfold Mf, Uf, ingc in H.
      destruct H as [[H|[H1 [_ H2]]]|[H|[_ [_ [H|H]]]]];
        try (eapply fo_not_o; eauto; discriminate).
      eapply fo_save_not_o; eauto.
  Qed.

  Lemma fo_gpr x : gpr h' x <-> gpr h x.
  Proof.
    split; apply rch_mono; intros x0; try (rewrite fo_inl by discriminate; auto; fail).
    - intros y _ H. apply fo_edge; auto.
    - intros y H. apply fo_edge'; auto. apply rch_in in H.
      destruct H as [H|H]; eapply fo_not_o; eauto; discriminate.
  Qed.

  Lemma fo_Cf d x : Cf h' d x <-> Cf h d x.
  Proof. unfold Cf. rewrite fo_Uf, fo_rchf. reflexivity. Qed.
  Lemma fo_Cg x : Cg h' x <-> Cg h x.
  Proof. unfold Cg. rewrite fo_gpr, fo_inl by discriminate. reflexivity. Qed.

  Lemma free_one_inv_aux : Inv h' R P B.
  Proof.
    constructor; [constructor|..]; cbn [top frames gc fresh h'].
    - intros l l' x H1 H2. apply fo_inl_sub in H1, H2. apply (i_uniq _ _ _ _ I l l' x); tauto.
    - intros l. unfold h', updl; cbn [lists]. destruct (lid_eq_dec l GFree).
      + apply fo_nodup.
      + apply (i_nodup _ _ _ _ I).
    - intros d Hd. unfold h', updl; cbn [lists].
      destruct (lid_eq_dec (Unm d) GFree); [discriminate|].
      destruct (lid_eq_dec (Mrk d) GFree); [discriminate|].
      destruct (lid_eq_dec (All d) GFree); [discriminate|].
      apply (i_above _ _ _ _ I); auto.
    - intros l x H. apply fo_inl_sub in H. destruct H as [H Hx].
      destruct (i_gcobj _ _ _ _ I _ _ H) as [g Hg]. exists g. apply fo_genx'; auto.
    - intros x [g Hg]. assert (Hx : x <> o).
      { intros ->. destruct Hg as [ob [Hg _]]. rewrite fo_mem_o in Hg. congruence. }
      destruct (i_listed _ _ _ _ I x) as [l Hl]; [exists g; apply fo_genx; auto|].
      exists l. destruct (lid_eq_dec l GFree) as [->|Hn].
      + apply fo_inl_free; auto.
      + apply fo_inl; auto.
    - intros x ob H. destruct (Nat.eq_dec x o) as [->|Hx]; [rewrite fo_mem_o in H; congruence|].
      rewrite fo_mem in H by auto. eapply i_fresh; eauto.
    - intros x ob g d H1 H2. destruct (Nat.eq_dec x o) as [->|Hx]; [rewrite fo_mem_o in H1; congruence|].
      rewrite fo_mem in H1 by auto.
      destruct (i_stack _ _ _ _ I _ _ _ _ H1 H2) as [Ha [Hb Hc]]. repeat split; auto.
      intros y d' Hy Hs. apply fo_stackobj in Hs. eauto.
    - intros x ob Hnf Hm Hu. destruct (Nat.eq_dec x o) as [->|Hx]; [rewrite fo_mem_o in Hm; congruence|].
      rewrite fo_mem in Hm by auto. apply fo_nf in Hnf. eapply i_uninit; eauto.
    - intros b d Hb. apply fo_inl; [discriminate|]. apply (i_B _ _ _ _ I _ _ Hb).
    - intros a x Hnf He. apply fo_nf in Hnf. apply fo_edge in He.
      destruct (i_edge _ _ _ _ I _ _ Hnf He) as [H1 H2]. split; [apply fo_nf; auto|].
      intros d Hd. apply fo_frle. apply H2. apply fo_fr; auto.
    - intros a x Hnf [g Hg] He. apply fo_nf in Hnf. apply fo_edge in He. apply fo_genx in Hg.
      assert (Ha : gcobj (mem h) a) by (exists g; auto).
      destruct (i_gcedge _ _ _ _ I _ _ Hnf Ha He) as [g' Hg']. exists g'. apply fo_genx'; auto.
      destruct (i_edge _ _ _ _ I _ _ Hnf He) as [[_ Hf] _]. intros ->. apply Hf, fo_o_free.
    - intros a ob g d H1 H2. destruct (Nat.eq_dec a o) as [->|Hx]; [rewrite fo_mem_o in H1; congruence|].
      rewrite fo_mem in H1 by auto.
      destruct (i_gcptr _ _ _ _ I _ _ _ _ H1 H2) as [g' Hg']. exists g'. apply fo_genx'; auto.
      intros ->. assert (Hnf : nf h a).
      { split; [congruence|]. intros Hf. eapply (gc_not_stack I); eauto. exists ob, (Some o). eauto. }
      assert (He : edge (mem h) a o) by (exists ob; eauto).
      destruct (i_edge _ _ _ _ I _ _ Hnf He) as [[_ Hf] _]. apply Hf, fo_o_free.
    - intros d x Hd Hr. rewrite fo_nf, fo_frle. eapply i_root; eauto.
    - apply (i_rootu _ _ _ _ I).
    - intros d x Hd Hp. destruct (i_pend _ _ _ _ I _ _ Hd Hp) as [H1 [ob [v H2]]].
      split; [apply fo_inl; auto; discriminate|]. exists ob, v. rewrite fo_mem; auto.
      eapply fo_not_o; eauto. discriminate.
    - apply (i_gens _ _ _ _ I).
    - apply (i_chain _ _ _ _ I).
    - intros d x g Hd H1 H2. rewrite fo_inl in H1 by discriminate. apply fo_genx in H2.
      eapply i_all; eauto.
    - intros d x g Hd H1 H2. apply fo_rchf in H1. apply fo_genx in H2. eapply i_rch; eauto.
    - intros x g H1 H2. apply fo_gpr in H1. apply fo_genx in H2. eapply i_gpr; eauto.
    - intros a x H1 H2. apply fo_gpr in H1. apply fo_edge in H2.
      destruct (i_gout _ _ _ _ I _ _ H1 H2) as [H|H]; [left; apply fo_ingc; auto|right].
      intros g Hg. apply fo_genx in Hg. auto.
    - intros x g H1 H2 H3. apply fo_rchf in H1. rewrite fo_ingc in H2. apply fo_genx in H3.
      eapply i_g3; eauto.
    - intros d a x Hd H1 H2 H3. rewrite fo_nf, fo_Cf in *. apply fo_edge in H3. eapply i_T; eauto.
    - intros d d' x H1 H2 H3. rewrite fo_Cf. eapply i_Troot; eauto.
    - intros a x H1 H2 H3. rewrite fo_nf, fo_Cg in *. apply fo_edge in H3. eapply i_Tg; eauto.
    - intros d x H1 H2. rewrite fo_Cg. eapply i_Tgroot; eauto.
    - apply (i_gf _ _ _ _ I).
    - apply (i_ggen _ _ _ _ I).
    - apply (i_gmax _ _ _ _ I).
    - apply (i_gmin _ _ _ _ I).
    - apply (i_nint _ _ _ _ I).
    - intros Hi.
      destruct (i_int _ _ _ _ I Hi) as [H1 [H2 H3]]. repeat split; auto.
    - apply (i_next _ _ _ _ I).
    - intros d x Hd Hx. rewrite !fo_inl in Hx by discriminate. eapply i_work; eauto.
  Qed.
End free_one.

Lemma free_one_inv h R P B : Inv h R P B -> Inv (free_one h) R P B.
Proof.
  intros I. destruct (free_one_cases h) as [[_ ->]|[o [r [E ->]]]]; auto.
  apply free_one_inv_aux; auto.
Qed.

(** ** Steps that only move objects between lists and change generations *)

Definition obj_geq (a b : obj) : Prop :=
  okind a = okind b /\ ofields a = ofields b /\
  (oloc a = oloc b \/ exists g g', oloc a = LGc g /\ oloc b = LGc g').
Definition geq (m m' : nat -> option obj) : Prop := forall x,
  match m x, m' x with
  | None, None => True
  | Some a, Some b => obj_geq a b
  | _, _ => False
  end.

Lemma geq_refl m : geq m m.
Proof. intros x. destruct (m x); auto. unfold obj_geq; auto. Qed.

Lemma geq_sym m m' : geq m m' -> geq m' m.
Proof.
  intros H x. specialize (H x). destruct (m x), (m' x); auto.
  destruct H as [H1 [H2 H3]]. repeat split; auto.
  destruct H3 as [H3|[g [g' H3]]]; [left; auto|right]. exists g', g; tauto.
Qed.

Lemma geq_some m m' x a : geq m m' -> m x = Some a -> exists b, m' x = Some b /\ obj_geq a b.
Proof.
  intros H Hx. specialize (H x). rewrite Hx in H. destruct (m' x) as [b|]; [|tauto]. eauto.
Qed.

Lemma geq_edge m m' o x : geq m m' -> edge m o x -> edge m' o x.
Proof.
  intros H [ob [H1 H2]]. destruct (geq_some _ _ _ _ H H1) as [b [Hb [_ [Hf Hl]]]].
  exists b. split; auto. rewrite <- Hf. destruct H2 as [H2|[d H2]]; [left; auto|right].
  exists d. destruct Hl as [Hl|[g [g' [Hl _]]]]; congruence.
Qed.

Lemma geq_edges m m' : geq m m' -> edges_eq m m'.
Proof. intros H o x. split; apply geq_edge; auto using geq_sym. Qed.

Lemma geq_gcobj m m' x : geq m m' -> gcobj m x -> gcobj m' x.
Proof.
  intros H [g [ob [H1 H2]]]. destruct (geq_some _ _ _ _ H H1) as [b [Hb [_ [_ Hl]]]].
  destruct Hl as [Hl|[g1 [g2 [_ Hl]]]]; [exists g|exists g2]; exists b; split; congruence.
Qed.

Lemma geq_stackobj m m' x d : geq m m' -> stackobj m x d -> stackobj m' x d.
Proof.
  intros H [ob [p [H1 H2]]]. destruct (geq_some _ _ _ _ H H1) as [b [Hb [_ [_ Hl]]]].
  exists b, p. split; auto. destruct Hl as [Hl|[g1 [g2 [Hl _]]]]; congruence.
Qed.

Lemma geq_none m m' x : geq m m' -> m x <> None -> m' x <> None.
Proof.
  intros H Hx. specialize (H x). destruct (m x), (m' x); try tauto; congruence.
Qed.

Section relist.
  Context {h h' : heap} {R : nat -> list value} {P : nat -> list nat} {B : list (nat * nat)}.
  Context (I : Inv h R P B).
  Context (Htop : top h' = top h) (Hfr : frames h' = frames h) (Hfresh : fresh h' = fresh h)
          (Hmem : geq (mem h) (mem h')) (Hok : lists_ok h')
          (Hlst : forall x, (exists l, inl h l x) <-> (exists l, inl h' l x))
          (Habv : forall d, top h < d ->
            lists h' (Unm d) = [] /\ lists h' (Mrk d) = [] /\ lists h' (All d) = [])
          (Hnf : forall x, nf h' x -> nf h x)
          (Hff : forall x d, nf h' x -> fr h x d <-> fr h' x d)
          (Hall : forall x d, inl h (All d) x -> inl h' (All d) x)
          (Hedge : forall o x, nf h' o -> edge (mem h) o x -> nf h' x)
          (Hroot : forall d x, d <= top h -> In (VObj x) (R d) -> nf h' x).

  Lemma relist_base : Base h' R P B.
  Proof.
    pose proof (geq_sym _ _ Hmem) as Hmem'.
    constructor; rewrite ?Htop, ?Hfr, ?Hfresh.
    - apply Hok.
    - apply Hok.
    - exact Habv.
    - intros l x H. destruct (proj2 (Hlst x)) as [l' Hl']; [eauto|].
      eapply geq_gcobj; eauto. eapply i_gcobj; eauto.
    - intros x H. apply Hlst. eapply i_listed; eauto. eapply geq_gcobj; eauto.
    - intros x ob H. destruct (geq_some _ _ _ _ Hmem' H) as [b [Hb _]].
      eapply i_fresh; eauto.
    - intros x ob g d H1 H2. destruct (geq_some _ _ _ _ Hmem' H1) as [b [Hb [Hk [Hfi Hl]]]].
      assert (Hlb : oloc b = LStack g d) by (destruct Hl as [Hl|[? [? [Hl _]]]]; congruence).
      destruct (i_stack _ _ _ _ I _ _ _ _ Hb Hlb) as [Ha [Hc Hd]].
      repeat split; auto; [congruence|].
      intros y d' Hy Hs. eapply Hd; [rewrite <- Hfi; eauto|]. eapply geq_stackobj; eauto.
    - intros x ob H1 H2 H3. destruct (geq_some _ _ _ _ Hmem' H2) as [b [Hb [_ [Hfi _]]]].
      eapply i_uninit; eauto. congruence.
    - intros b d Hb. apply Hall. apply (i_B _ _ _ _ I _ _ Hb).
    - intros o x H1 H2. apply (geq_edge _ _ _ _ Hmem') in H2.
      destruct (i_edge _ _ _ _ I _ _ (Hnf _ H1) H2) as [Ha Hb].
      split; [eauto|]. intros d Hd. rewrite <- Hff in Hd by auto.
      destruct (Hb _ Hd) as [d' [Hc He]]. exists d'. split; auto. apply Hff; eauto.
    - intros o x H1 H2 H3. eapply geq_gcobj; eauto. eapply i_gcedge; eauto.
      + eapply geq_gcobj; eauto.
      + eapply geq_edge; eauto.
    - intros o ob g d H1 H2. destruct (geq_some _ _ _ _ Hmem' H1) as [b [Hb [_ [_ Hl]]]].
      eapply geq_gcobj; eauto. eapply i_gcptr; eauto. destruct Hl as [Hl|[? [? [Hl _]]]]; [|congruence].
      rewrite <- Hl. eauto.
    - intros d x Hd Hr. split; [eauto|]. destruct (i_root _ _ _ _ I _ _ Hd Hr) as [Ha [d' [Hb Hc]]].
      exists d'. split; auto. apply Hff; eauto.
    - apply (i_rootu _ _ _ _ I).
    - intros d r Hd Hr. destruct (i_pend _ _ _ _ I _ _ Hd Hr) as [Ha [ob [v [Hb [Hc He]]]]].
      split; auto. destruct (geq_some _ _ _ _ Hmem Hb) as [b [Hb' [Hk [Hfi _]]]].
      exists b, v. repeat split; congruence.
    - apply (i_gens _ _ _ _ I).
    - apply (i_chain _ _ _ _ I).
  Qed.
End relist.

(** ** Marking the references of an object *)

Definition marks (h : heap) (vs : list value) (x : nat) : Prop :=
  In (VObj x) vs /\ exists g, genx (mem h) x g /\ g_min (gc h) <= g /\ g <> g_gen (gc h).

Lemma marks_dec h vs x : {marks h vs x} + {~ marks h vs x}.
Proof.
  unfold marks, genx. 
  destruct (in_dec (fun a b : value => ltac:(decide equality; apply Nat.eq_dec)) (VObj x) vs);
    [|right; tauto].
  destruct (mem h x) as [ob|] eqn:E.
  - destruct (oloc ob) as [p d|g] eqn:El.
    + right. intros [_ [g [[b [H1 H2]] _]]]. congruence.
    + destruct (le_dec (g_min (gc h)) g); [destruct (Nat.eq_dec g (g_gen (gc h)))|].
      * right. intros [_ [g' [[b [H1 H2]] H3]]]. assert (g' = g) by congruence. lia.
      * left. split; auto. exists g. split; [exists ob; auto|auto].
      * right. intros [_ [g' [[b [H1 H2]] H3]]]. assert (g' = g) by congruence. lia.
  - right. intros [_ [g [[b [H1 H2]] _]]]. congruence.
Defined.

Lemma marks_skip h v vs x : v <> VObj x -> (marks h (v :: vs) x <-> marks h vs x).
Proof.
  intros Hv. unfold marks. cbn [In]. split; intros [H1 H2]; split; auto.
  destruct H1; [contradiction|auto].
Qed.

Lemma mark_refs_spec vs : forall h,
  ~ In VUninit vs -> (forall x, In (VObj x) vs -> gcobj (mem h) x) -> lists_ok h ->
  exists L, mark_refs h vs = Some (set_lists h L) /\ lists_ok (set_lists h L) /\
    forall l x, In x (L l) <-> (marks h vs x /\ l = GMrk) \/ (~ marks h vs x /\ inl h l x).
Proof.
  induction vs as [|v vs IH]; intros h Hu Hg Hok.
  - exists (lists h). cbn [mark_refs]. split; [destruct h; reflexivity|].
    split; [destruct h; exact Hok|].
    intros l x. unfold marks, inl. cbn [In]. tauto.
  - assert (Hu' : ~ In VUninit vs) by (cbn [In] in Hu; tauto).
    assert (Hg' : forall x, In (VObj x) vs -> gcobj (mem h) x) by (intros; apply Hg; cbn; auto).
    cbn [mark_refs].
    assert (Hskip : mark_ref h v = Some h ->
              (forall x, marks h (v :: vs) x <-> marks h vs x) ->
      exists L, match mark_ref h v with Some h' => mark_refs h' vs | None => None end
                  = Some (set_lists h L) /\ lists_ok (set_lists h L) /\
      forall l x, In x (L l) <-> (marks h (v :: vs) x /\ l = GMrk) \/ (~ marks h (v :: vs) x /\ inl h l x)).
    { intros Hm Heq. rewrite Hm. destruct (IH h Hu' Hg' Hok) as [L [H1 [H2 H3]]].
      exists L. repeat split; auto; try apply H2. 
      - rewrite Heq. apply H3.
      - rewrite Heq. apply H3. }
    destruct v as [| z | o |].
    + apply Hskip; [reflexivity|]. intros x. apply marks_skip. discriminate.
    + apply Hskip; [reflexivity|]. intros x. apply marks_skip. discriminate.
    + destruct (Hg o) as [g [ob [Hm Hl]]]; [cbn; auto|].
      cbn [mark_ref] in *. rewrite Hm, Hl in *.
      destruct ((g_min (gc h) <=? g) && negb (g =? g_gen (gc h))) eqn:E.
      * assert (Hmk : marks h (VObj o :: vs) o).
        { split; [cbn; auto|]. exists g. split; [exists ob; auto|].
          apply andb_true_iff in E. destruct E as [E1 E2]. apply Nat.leb_le in E1.
          apply negb_true_iff, Nat.eqb_neq in E2. auto. }
        destruct (IH (move_to h GMrk o) Hu') as [L [H1 [H2 H3]]].
        { exact Hg'. }
        { apply lists_ok_move_to; auto. }
        exists L. split; [rewrite H1; reflexivity|]. split; [exact H2|].
        intros l x. rewrite H3.
        assert (Hmx : marks (move_to h GMrk o) vs x <-> marks h vs x) by reflexivity.
        rewrite Hmx, inl_move_to.
        destruct (Nat.eq_dec x o) as [->|Hx].
        { destruct (marks_dec h vs o); intuition congruence. }
        { assert (Hc : marks h (VObj o :: vs) x <-> marks h vs x).
          { apply marks_skip. congruence. }
          rewrite Hc. intuition congruence. }
      * apply Hskip; [reflexivity|]. intros x. unfold marks; cbn [In].
        split; intros [H H']; split; auto. destruct H as [H|H]; auto. exfalso.
        injection H as <-. destruct H' as [g' [[b [Hb1 Hb2]] Hb3]].
        assert (g' = g) by congruence. subst g'.
        apply andb_false_iff in E. destruct E as [E|E].
        { apply Nat.leb_gt in E. lia. }
        { apply negb_false_iff, Nat.eqb_eq in E. lia. }
    + exfalso. apply Hu. cbn; auto.
Qed.

(** ** Traversing one marked object *)

Section traverse.
  Context {h h' : heap} {R : nat -> list value} {P : nat -> list nat} {B : list (nat * nat)}.
  Context (I : Inv h R P B) (o : nat) (ob : obj) (Ho : inl h GMrk o) (Hob : mem h o = Some ob).
  Let g := gc h.
  Let dst := if g_int g then Unm (g_frame g) else All (g_frame g).
  Let S x := edge (mem h) o x /\ ingc h x.
  Context (Htop : top h' = top h) (Hfrm : frames h' = frames h) (Hfresh : fresh h' = fresh h)
          (Hgc : gc h' = gc h)
          (Hmem : mem h' = upd (mem h) o (Some (mk_obj (okind ob) (ofields ob) (LGc (g_gen g)))))
          (Hok : lists_ok h') (HS : forall x, {S x} + {~ S x})
          (Hl : forall l x, inl h' l x <->
             (l = dst /\ x = o) \/ (x <> o /\ ((S x /\ l = GMrk) \/ (~ S x /\ inl h l x)))).

  Lemma tr_g : exists g0, oloc ob = LGc g0.
  Proof. destruct (i_gcobj _ _ _ _ I _ _ Ho) as [g0 [b [H1 H2]]]. exists g0. congruence. Qed.

  Lemma tr_geq : geq (mem h) (mem h').
  Proof.
    intros x. rewrite Hmem. unfold upd. destruct (Nat.eq_dec x o) as [->|Hx].
    - rewrite Hob. destruct tr_g as [g0 Hg0]. unfold obj_geq; cbn. repeat split; auto.
      right. exists g0, (g_gen g). auto.
    - destruct (mem h x); auto. unfold obj_geq; auto.
  Qed.

  Lemma tr_edges o' x : edge (mem h') o' x <-> edge (mem h) o' x.
  Proof. symmetry. apply geq_edges. apply tr_geq. Qed.

  Lemma tr_genx x g0 : genx (mem h') x g0 -> (x = o /\ g0 = g_gen g) \/ (x <> o /\ genx (mem h) x g0).
  Proof.
    intros [b [H1 H2]]. rewrite Hmem in H1. unfold upd in H1. destruct (Nat.eq_dec x o) as [->|Hx].
    - left. injection H1 as <-. cbn in H2. split; congruence.
    - right. split; auto. exists b; auto.
  Qed.

  Lemma tr_dst : dst <> GMrk /\ dst <> GUnm /\ dst <> GFree.
  Proof. unfold dst. destruct (g_int g); repeat split; discriminate. Qed.

  Lemma tr_S_not l x : l <> GMrk -> l <> GUnm -> inl h l x -> ~ S x.
  Proof.
    intros H1 H2 Hx [_ [Hs|Hs]].
    - apply H1. eapply i_uniq; eauto.
    - apply H2. eapply i_uniq; eauto.
  Qed.

  Lemma tr_o_not l x : l <> GMrk -> inl h l x -> x <> o.
  Proof. intros H Hx ->. apply H. eapply i_uniq; eauto. Qed.

  (** Lists other than the collector's and the destination are unchanged. *)
  Lemma tr_other l x : l <> GMrk -> l <> GUnm -> l <> dst -> (inl h' l x <-> inl h l x).
  Proof.
    intros H1 H2 H3. rewrite Hl. split.
    - intros [[? _]|[_ [[_ ?]|[_ ?]]]]; tauto.
    - intros H. right. split; [eapply tr_o_not; eauto|]. right. split; auto.
      eapply tr_S_not; eauto.
  Qed.

  Lemma tr_to_dst x : inl h' dst x <-> inl h dst x \/ x = o.
  Proof.
    destruct tr_dst as [D1 [D2 _]]. rewrite Hl. split.
    - intros [[_ ?]|[_ [[_ ?]|[_ ?]]]]; tauto.
    - intros [H|H]; [|left; auto]. right. split; [eapply tr_o_not; eauto|]. right. split; auto.
      eapply tr_S_not; eauto.
  Qed.

  Lemma tr_ingc x : ingc h' x <-> ingc h x /\ x <> o.
  Proof.
    destruct tr_dst as [D1 [D2 _]].
    unfold ingc. rewrite !Hl. split.
    - intros [[[D _]|[Hx [[Hs _]|[_ Hi]]]]|[[D _]|[Hx [[Hs D]|[_ Hi]]]]]; try congruence; try tauto.
      split; auto. apply Hs.
    - intros [Hi Hx]. destruct (HS x) as [Hs|Hs]; [left; right; tauto|].
      destruct Hi; [left|right]; right; tauto.
  Qed.

  Lemma tr_gmrk x : inl h' GMrk x <-> x <> o /\ (S x \/ inl h GMrk x).
  Proof.
    destruct tr_dst as [D1 [D2 _]]. rewrite Hl. split.
    - intros [[D _]|[Hx [[Hs _]|[_ Hi]]]]; try congruence; tauto.
    - intros [Hx H]. right. split; auto. destruct (HS x); tauto.
  Qed.

  Lemma tr_gunm x : inl h' GUnm x <-> inl h GUnm x /\ ~ S x.
  Proof.
    destruct tr_dst as [D1 [D2 _]]. rewrite Hl. split.
    - intros [[D _]|[Hx [[Hs D]|[Hs Hi]]]]; try congruence. tauto.
    - intros [Hi Hs]. right. split; [|tauto]. apply (tr_o_not GUnm); auto. discriminate.
  Qed.

  Lemma tr_gpr_o : gpr h o.
  Proof. apply rch_base; auto. Qed.
  Lemma tr_gpr_S x : S x -> gpr h x.
  Proof.
    intros [He [Hi|Hi]]; [apply rch_base; auto|]. eapply rch_step; eauto. apply tr_gpr_o.
  Qed.

  Lemma tr_gpr1 x : gpr h' x -> gpr h x /\ x <> o.
  Proof.
    intros H. split.
    - induction H as [x H|p x H IH He Hu].
      + apply tr_gmrk in H. destruct H as [_ [H|H]]; [apply tr_gpr_S; auto|apply rch_base; auto].
      + apply tr_gunm in Hu. apply tr_edges in He. eapply rch_step; eauto; tauto.
    - apply rch_in in H. destruct H as [H|H].
      + apply tr_gmrk in H; tauto.
      + apply tr_gunm in H. destruct H as [H _]. apply (tr_o_not GUnm); auto. discriminate.
  Qed.

  Lemma tr_gpr2 x : gpr h x -> x = o \/ gpr h' x.
  Proof.
    intros H. induction H as [x H|p x H IH He Hu].
    - destruct (Nat.eq_dec x o); [auto|right]. apply rch_base. apply tr_gmrk. auto.
    - assert (Hx : x <> o) by (apply (tr_o_not GUnm); auto; discriminate).
      right. destruct (HS x) as [Hs|Hs]; [apply rch_base, tr_gmrk; auto|].
      destruct IH as [->|IH].
      + exfalso. apply Hs. split; auto. right; auto.
      + eapply rch_step; eauto; [apply tr_edges; auto|]. apply tr_gunm; auto.
  Qed.

  Lemma tr_Uf d x : Uf h' d x <-> Uf h d x.
  Proof.
    unfold Uf. rewrite Hgc. fold g.
    destruct (bool_dec (g_int g) true) as [Ei|Ei]; [destruct (Nat.eq_dec (g_frame g) d) as [Ed|Ed]|].
    - assert (Hd : dst = Unm d) by (unfold dst; rewrite Ei; congruence).
      rewrite <- Hd, tr_to_dst, tr_ingc.
      assert (Hio : ingc h o) by (left; auto).
      split; intros H.
      + destruct H as [[H|H]|H]; [left; auto|subst x; right; auto|right; tauto].
      + destruct H as [H|[H1 [H2 H]]]; [left; auto|].
        destruct (Nat.eq_dec x o); [left; auto|right; auto].
    - rewrite tr_other; try discriminate; [|unfold dst; rewrite Ei; congruence]. tauto.
    - rewrite tr_other; try discriminate; [|unfold dst; destruct (g_int g); congruence]. tauto.
  Qed.

  Lemma tr_Mf d x : Mf h' d x <-> Mf h d x.
  Proof.
    unfold Mf. rewrite Hgc. rewrite tr_other; try discriminate; [tauto|].
    unfold dst. destruct (g_int g); discriminate.
  Qed.

  Lemma tr_rchf d x : rchf h' d x <-> rchf h d x.
  Proof.
    apply rch_iff; [apply tr_Mf|apply tr_Uf|]. intros a b. apply tr_edges.
  Qed.

  Lemma tr_Cf d x : Cf h' d x <-> Cf h d x.
  Proof. unfold Cf. rewrite tr_Uf, tr_rchf. tauto. Qed.

  Lemma tr_stackobj x d : stackobj (mem h') x d <-> stackobj (mem h) x d.
  Proof. split; apply geq_stackobj; auto using geq_sym, tr_geq. Qed.

  Lemma tr_fr x d : fr h' x d <-> fr h x d.
  Proof.
    unfold fr. rewrite tr_stackobj, Hgc. fold g. fold (ingc h x). fold (ingc h' x).
    rewrite tr_ingc.
    assert (Hio : ingc h o) by (left; auto).
    assert (Hm : inl h' (Mrk d) x <-> inl h (Mrk d) x).
    { apply tr_other; try discriminate. unfold dst; destruct (g_int g); discriminate. }
    rewrite Hm.
    destruct (Nat.eq_dec (g_frame g) d) as [<-|Hd].
    - assert (Ei : g_int g = true \/ g_int g = false) by (case (g_int g); auto).
      destruct Ei as [Ei|Ei].
      + assert (Ha : inl h' (All (g_frame g)) x <-> inl h (All (g_frame g)) x).
        { apply tr_other; unfold dst; try rewrite Ei; discriminate. }
        assert (Hu : inl h' (Unm (g_frame g)) x <-> inl h (Unm (g_frame g)) x \/ x = o).
        { pose proof (tr_to_dst x) as H. unfold dst in H. rewrite Ei in H. exact H. }
        rewrite Ha, Hu. destruct (Nat.eq_dec x o); [subst x; tauto|tauto].
      + assert (Ha : inl h' (Unm (g_frame g)) x <-> inl h (Unm (g_frame g)) x).
        { apply tr_other; unfold dst; try rewrite Ei; discriminate. }
        assert (Hu : inl h' (All (g_frame g)) x <-> inl h (All (g_frame g)) x \/ x = o).
        { pose proof (tr_to_dst x) as H. unfold dst in H. rewrite Ei in H. exact H. }
        rewrite Ha, Hu. destruct (Nat.eq_dec x o); [subst x; tauto|tauto].
    - assert (Ha : inl h' (All d) x <-> inl h (All d) x).
      { apply tr_other; unfold dst; try discriminate; destruct (g_int g); congruence. }
      assert (Hu : inl h' (Unm d) x <-> inl h (Unm d) x).
      { apply tr_other; unfold dst; try discriminate; destruct (g_int g); congruence. }
      rewrite Ha, Hu. tauto.
  Qed.

  Lemma tr_gfree x : inl h' GFree x <-> inl h GFree x.
  Proof. apply tr_other; try discriminate. destruct tr_dst as [_ [_ H]]. congruence. Qed.

  Lemma tr_nf x : nf h' x <-> nf h x.
  Proof.
    unfold nf. rewrite tr_gfree. split; intros [H1 H2]; split; auto.
    - eapply geq_none; [apply geq_sym, tr_geq|]; auto.
    - eapply geq_none; [apply tr_geq|]; auto.
  Qed.

  Lemma tr_listed x : (exists l, inl h l x) <-> (exists l, inl h' l x).
  Proof.
    split.
    - intros [l Hx]. destruct (Nat.eq_dec x o) as [->|Hn].
      + exists dst. apply tr_to_dst; auto.
      + destruct (HS x) as [Hs|Hs]; [exists GMrk; apply tr_gmrk; auto|].
        exists l. apply Hl. right; auto.
    - intros [l Hx]. rewrite Hl in Hx. destruct Hx as [[_ ->]|[_ [[[_ Hs] _]|[_ Hi]]]]; eauto.
      destruct Hs; eauto.
  Qed.

  Lemma tr_all d x : inl h (All d) x -> inl h' (All d) x.
  Proof.
    intros H. destruct (lid_eq_dec (All d) dst) as [He|He].
    - rewrite He. apply tr_to_dst. left. rewrite <- He. auto.
    - apply tr_other; auto; discriminate.
  Qed.

  Lemma traverse_inv : Inv h' R P B.
  Proof.
    assert (Hwin := i_ggen _ _ _ _ I). assert (Hmx := i_gmax _ _ _ _ I). 
    assert (Hmn := i_gmin _ _ _ _ I).
    constructor.
    - apply (relist_base I); auto.
      + apply tr_geq.
      + apply tr_listed.
      + intros d Hd. destruct (i_above _ _ _ _ I _ Hd) as [H1 [H2 H3]].
        assert (He : forall l, lists h l = [] -> l <> dst -> l <> GMrk -> l <> GUnm -> lists h' l = []).
        { intros l He Hn N1 N2. destruct (lists h' l) as [|x t] eqn:E; auto. exfalso.
          assert (Hx : inl h' l x) by (unfold inl; rewrite E; cbn; auto).
          rewrite tr_other in Hx by auto. unfold inl in Hx. rewrite He in Hx. auto. }
        pose proof (i_gf _ _ _ _ I) as Hgf.
        assert (Hdd : forall f : nat -> lid, (f = Unm \/ f = All) -> f d <> dst).
        { intros f [->| ->]; unfold dst, g; destruct (g_int (gc h)); intros X; try discriminate;
          injection X as X; lia. }
        repeat split; apply He; auto; try discriminate;
          unfold dst; destruct (g_int g); discriminate.
      + intros x. apply tr_nf.
      + intros x d _. symmetry. apply tr_fr.
      + intros x d. apply tr_all.
      + intros a x Ha He. apply tr_nf in Ha. apply tr_nf. eapply i_edge; eauto.
      + intros d x Hd Hr. apply tr_nf. eapply i_root; eauto.
    - intros d x g0 Hd Hx Hg0. rewrite Htop in Hd. rewrite Hfrm.
      destruct (tr_genx _ _ Hg0) as [[-> ->]|[Hn Hg1]].
      + rewrite Hl in Hx. destruct Hx as [[Hx _]|[Hx _]]; [|congruence].
        unfold dst in Hx. destruct (g_int g) eqn:Ei; [discriminate|]. injection Hx as ->.
        destruct (i_nint _ _ _ _ I Ei) as [_ H]. exact H.
      + eapply i_all; eauto. rewrite Hl in Hx. destruct Hx as [[_ Hx]|[_ [[_ Hx]|[_ Hx]]]]; try congruence.
    - intros d x g0 Hd Hx Hg0. rewrite Htop in Hd. rewrite Hfrm. apply tr_rchf in Hx.
      destruct (tr_genx _ _ Hg0) as [[-> ->]|[Hn Hg1]]; [|eapply i_rch; eauto].
      apply rch_in in Hx. assert (Hi : g_int (gc h) = true /\ g_frame (gc h) = d).
      { unfold Mf, Uf in Hx. destruct Hx as [[Hx|[H1 [H2 _]]]|[Hx|[H1 [H2 _]]]]; auto.
        - pose proof (i_uniq _ _ _ _ I _ _ _ Hx Ho); discriminate.
        - pose proof (i_uniq _ _ _ _ I _ _ _ Hx Ho); discriminate. }
      destruct Hi as [Hi <-]. destruct (i_int _ _ _ _ I Hi) as [Hi' _]. unfold g. lia.
    - intros x g0 Hx Hg0. rewrite Hgc. apply tr_gpr1 in Hx. destruct Hx as [Hx Hn].
      destruct (tr_genx _ _ Hg0) as [[-> ->]|[_ Hg1]]; [congruence|]. eapply i_gpr; eauto.
    - intros a x Ha He. rewrite Hgc. apply tr_gpr1 in Ha. destruct Ha as [Ha _]. apply tr_edges in He.
      destruct (Nat.eq_dec x o) as [->|Hn].
      + right. intros g0 Hg0. destruct (tr_genx _ _ Hg0) as [[_ ->]|[H _]]; [auto|congruence].
      + destruct (i_gout _ _ _ _ I _ _ Ha He) as [H|H]; [left; apply tr_ingc; auto|right].
        intros g0 Hg0. destruct (tr_genx _ _ Hg0) as [[-> _]|[_ Hg1]]; [congruence|]. auto.
    - intros x g0 Hx Hn Hg0. rewrite Hgc in *. apply tr_rchf in Hx. rewrite tr_ingc in Hn.
      destruct (tr_genx _ _ Hg0) as [[-> ->]|[Hn' Hg1]]; [auto|]. eapply i_g3; eauto.
    - intros d a x Hd Ha HC He. rewrite Htop in Hd. rewrite tr_nf, tr_Cf, tr_edges in *.
      eapply i_T; eauto.
    - intros d d' x Hd Hd' Hr. rewrite Htop in *. rewrite tr_Cf. eapply i_Troot; eauto.
    - intros a x Ha HC He. rewrite tr_nf, tr_edges in *. intros Hx. apply tr_gunm in Hx.
      destruct Hx as [Hx Hs].
      assert (HC' : Cg h a).
      { intros Hu. destruct (HS a) as [Hsa|Hsa]; [apply tr_gpr_S; auto|].
        apply tr_gpr1. apply HC. apply tr_gunm; auto. }
      destruct (tr_gpr2 x) as [->|H]; auto.
      + eapply i_Tg; eauto.
      + pose proof (i_uniq _ _ _ _ I _ _ _ Hx Ho); discriminate.
    - intros d x Hd Hr Hx. rewrite Htop in Hd. apply tr_gunm in Hx. destruct Hx as [Hx Hs].
      destruct (tr_gpr2 x) as [->|H]; auto.
      + apply (i_Tgroot _ _ _ _ I _ _ Hd Hr Hx).
      + pose proof (i_uniq _ _ _ _ I _ _ _ Hx Ho); discriminate.
    - rewrite Htop, Hgc. apply (i_gf _ _ _ _ I).
    - rewrite Hgc. apply (i_ggen _ _ _ _ I).
    - rewrite Hgc, Hfrm. apply (i_gmax _ _ _ _ I).
    - rewrite Hgc, Hfrm. apply (i_gmin _ _ _ _ I).
    - rewrite Hgc, Hfrm. apply (i_nint _ _ _ _ I).
    - rewrite Hgc, Hfrm. intros Hi. destruct (i_int _ _ _ _ I Hi) as [H1 [H2 H3]].
      split; [auto|split; [|auto]]. intros x Hx.
      assert (Hd : dst = Unm (g_frame (gc h))) by (unfold dst, g; rewrite Hi; auto).
      rewrite <- Hd, tr_to_dst, tr_gmrk.
      destruct (Nat.eq_dec x o) as [->|Hn]; [tauto|].
      destruct (H2 x Hx) as [H|[H|H]].
      + tauto.
      + rewrite Hd. tauto.
      + right; right. apply tr_other; try discriminate; auto. rewrite Hd. discriminate.
    - rewrite Hgc, Htop. apply (i_next _ _ _ _ I).
    - rewrite Hgc, Htop. intros d x Hd Hx.
      assert (Hm : inl h' (Mrk d) x -> inl h (Mrk d) x).
      { apply tr_other; try discriminate. unfold dst; destruct (g_int g); discriminate. }
      destruct Hx as [Hx|Hx]; [|eapply i_work; eauto].
      rewrite Hl in Hx. destruct Hx as [[Hx _]|[_ [[_ Hx]|[_ Hx]]]].
      + unfold dst in Hx. destruct (g_int g) eqn:Ei; [|discriminate]. injection Hx as ->.
        apply (i_int _ _ _ _ I Ei).
      + discriminate.
      + eapply i_work; eauto.
  Qed.
End traverse.

(** ** End of a cycle: unmarked objects become garbage *)

Section finish.
  Context {h : heap} {R : nat -> list value} {P : nat -> list nat} {B : list (nat * nat)}.
  Context (I : Inv h R P B) (Hm : lists h GMrk = []).
  Let h' := move_all h GFree GUnm.

  Lemma fi_inl l x : inl h' l x <->
    (l = GFree /\ (inl h GFree x \/ inl h GUnm x)) \/ (l <> GFree /\ l <> GUnm /\ inl h l x).
  Proof. apply inl_move_all. discriminate. Qed.

  Lemma fi_other l x : l <> GFree -> l <> GUnm -> (inl h' l x <-> inl h l x).
  Proof. intros H1 H2. rewrite fi_inl. tauto. Qed.

  Lemma fi_no_gmrk x : ~ inl h GMrk x.
  Proof. unfold inl. rewrite Hm. auto. Qed.

  Lemma fi_no_gpr x : ~ gpr h x.
  Proof. intros H. induction H; auto. eapply fi_no_gmrk; eauto. Qed.

  Lemma fi_nf x : nf h' x <-> nf h x /\ ~ inl h GUnm x.
  Proof.
    unfold nf. change (mem h') with (mem h). rewrite fi_inl. intuition congruence.
  Qed.

  Lemma fi_ingc x : ~ ingc h' x.
  Proof.
    unfold ingc. rewrite !fi_inl. pose proof (fi_no_gmrk x). intuition congruence.
  Qed.

  Lemma fi_closed o x : nf h' o -> edge (mem h) o x -> nf h' x.
  Proof.
    rewrite !fi_nf. intros [H1 H2] He. split.
    - eapply i_edge; eauto.
    - intros Hx. apply (fi_no_gpr x). apply (i_Tg _ _ _ _ I o x); auto.
      intros H; contradiction.
  Qed.

  Lemma fi_root d x : d <= top h -> In (VObj x) (R d) -> nf h' x.
  Proof.
    intros Hd Hr. apply fi_nf. split; [eapply i_root; eauto|].
    intros Hx. apply (fi_no_gpr x). apply (i_Tgroot _ _ _ _ I _ _ Hd Hr Hx).
  Qed.

  Lemma fi_Mf d x : Mf h' d x <-> Mf h d x.
  Proof. unfold Mf. change (gc h') with (gc h). rewrite fi_other by discriminate. tauto. Qed.

  Lemma fi_Mf_nf d x : Mf h d x -> nf h' x.
  Proof.
    intros H. apply fi_nf. destruct H as [H|[Hi [_ Hs]]].
    - split; [eapply listed_nf; eauto; discriminate|].
      intros Hx. pose proof (i_uniq _ _ _ _ I _ _ _ H Hx). discriminate.
    - destruct (i_int _ _ _ _ I Hi) as [_ [Hs' _]].
      destruct (Hs' x Hs) as [H|[H|H]].
      + exfalso; eapply fi_no_gmrk; eauto.
      + split; [eapply listed_nf; eauto; discriminate|].
        intros Hx. pose proof (i_uniq _ _ _ _ I _ _ _ H Hx). discriminate.
      + split; [eapply listed_nf; eauto; discriminate|].
        intros Hx. pose proof (i_uniq _ _ _ _ I _ _ _ H Hx). discriminate.
  Qed.

  Lemma fi_rchf_nf d x : rchf h d x -> nf h' x.
  Proof.
    intros H. induction H as [x H|o x H IH He Hu].
    - eapply fi_Mf_nf; eauto.
    - eapply fi_closed; eauto.
  Qed.

  Lemma fi_Uf d x : Uf h' d x -> Uf h d x.
  Proof.
    unfold Uf. change (gc h') with (gc h). pose proof (fi_ingc x).
    rewrite fi_other by discriminate. tauto.
  Qed.
  Lemma fi_Uf' d x : nf h' x -> Uf h d x -> Uf h' d x.
  Proof.
    unfold Uf. change (gc h') with (gc h). intros Hn.
    rewrite fi_other by discriminate. intros [H|[_ [_ [H|H]]]]; auto.
    - exfalso; eapply fi_no_gmrk; eauto.
    - apply fi_nf in Hn. tauto.
  Qed.

  Lemma fi_rchf d x : rchf h' d x <-> rchf h d x.
  Proof.
    split; intros H.
    - revert H. apply rch_mono; [intro; apply fi_Mf|intro; apply fi_Uf|auto].
    - induction H as [x H|o x H IH He Hu].
      + apply rch_base. apply fi_Mf; auto.
      + eapply rch_step; eauto. apply fi_Uf'; auto. apply (fi_rchf_nf d). eapply rch_step; eauto.
  Qed.

  Lemma fi_Cf d x : nf h' x -> (Cf h' d x <-> Cf h d x).
  Proof.
    intros Hn. unfold Cf. rewrite fi_rchf.
    split; intros H1 H2; apply H1; [apply fi_Uf'|apply fi_Uf]; auto.
  Qed.

  Lemma fi_fr x d : nf h' x -> (fr h x d <-> fr h' x d).
  Proof.
    intros Hn. apply fi_nf in Hn. unfold fr. rewrite !(fi_other _ x) by discriminate.
    change (gc h') with (gc h). change (mem h') with (mem h). pose proof (fi_no_gmrk x).
    assert (Hx : ~ inl h' GUnm x) by (rewrite fi_inl; intuition congruence). tauto.
  Qed.

  Lemma finish_inv : Inv h' R P B.
  Proof.
    constructor.
    - apply (relist_base I); try reflexivity.
      + apply geq_refl.
      + apply lists_ok_move_all; [discriminate|]. eapply inv_lists_ok; eauto.
      + intros x. split; intros [l H].
        * destruct (lid_eq_dec l GUnm) as [->|H1]; [exists GFree; apply fi_inl; auto|].
          exists l. apply fi_inl. destruct (lid_eq_dec l GFree) as [->|H2]; tauto.
        * apply fi_inl in H. destruct H as [[_ [H|H]]|[_ [_ H]]]; eauto.
      + intros d Hd. destruct (i_above _ _ _ _ I _ Hd) as [H1 [H2 H3]]. auto.
      + intros x Hx. apply fi_nf in Hx. tauto.
      + intros x d Hx. apply fi_fr; auto.
      + intros x d Hx. apply fi_other; auto; discriminate.
      + apply fi_closed.
      + apply fi_root.
    - intros d x g Hd Hx. rewrite fi_other in Hx by discriminate. eapply (i_all _ _ _ _ I); eauto.
    - intros d x g Hd Hx Hg. rewrite fi_rchf in Hx. eapply (i_rch _ _ _ _ I); eauto.
    - intros x g Hx. exfalso. apply rch_in in Hx. eapply fi_ingc; eauto.
    - intros o x Hx. exfalso. apply rch_in in Hx. eapply fi_ingc; eauto.
    - intros x g Hx Hn Hg. apply fi_rchf in Hx. eapply (i_g3 _ _ _ _ I); eauto.
      pose proof (fi_rchf_nf _ _ Hx) as Hnf. apply fi_nf in Hnf.
      intros [H|H]; [eapply fi_no_gmrk; eauto|tauto].
    - intros d o x Hd Ho HC He. pose proof (fi_closed _ _ Ho He) as Hx.
      rewrite fi_Cf in HC by auto. apply fi_Cf; auto. apply (i_T _ _ _ _ I d o x); auto.
      apply fi_nf in Ho. tauto.
    - intros d d' x Hd Hd' Hr. apply fi_Cf; [eapply fi_root; eauto|]. eapply i_Troot; eauto.
    - intros o x Ho HC He Hx. exfalso. apply (fi_ingc x). right; auto.
    - intros d x Hd Hr Hx. exfalso. apply (fi_ingc x). right; auto.
    - apply (i_gf _ _ _ _ I).
    - apply (i_ggen _ _ _ _ I).
    - apply (i_gmax _ _ _ _ I).
    - apply (i_gmin _ _ _ _ I).
    - apply (i_nint _ _ _ _ I).
    - intros Hi. destruct (i_int _ _ _ _ I Hi) as [H1 [H2 H3]]. split; [auto|split; [|auto]].
      intros x Hx. rewrite !fi_other by discriminate. auto.
    - apply (i_next _ _ _ _ I).
    - intros d x Hd Hx. rewrite !fi_other in Hx by discriminate. apply (i_work _ _ _ _ I d x Hd Hx).
  Qed.
End finish.

(** ** Resurrecting one saved object *)

Section save.
  Context {h : heap} {R : nat -> list value} {P : nat -> list nat} {B : list (nat * nat)}.
  Context (I : Inv h R P B) (Hg : forall x, ~ ingc h x)
          (o : nat) (Hint : g_int (gc h) = true) (Ho : In o (g_save (gc h))).
  Let F := g_frame (gc h).
  Let h' := move_to h (Mrk F) o.

  Lemma sv_inl l x : inl h' l x <-> (l = Mrk F /\ x = o) \/ (inl h l x /\ x <> o).
  Proof. apply inl_move_to. Qed.

  Lemma sv_o : inl h (Unm F) o \/ inl h (Mrk F) o.
  Proof.
    destruct (i_int _ _ _ _ I Hint) as [_ [Hs _]]. destruct (Hs o Ho) as [H|H]; [|auto].
    exfalso. apply (Hg o). left; auto.
  Qed.

  Lemma sv_other l x : l <> Unm F -> l <> Mrk F -> (inl h' l x <-> inl h l x).
  Proof.
    intros H1 H2. rewrite sv_inl. split; [tauto|]. intros H. right. split; auto. intros ->.
    destruct sv_o as [H'|H']; pose proof (i_uniq _ _ _ _ I _ _ _ H H'); contradiction.
  Qed.
  Lemma sv_mrk x : inl h' (Mrk F) x <-> inl h (Mrk F) x \/ x = o.
  Proof. rewrite sv_inl. destruct (Nat.eq_dec x o); tauto. Qed.
  Lemma sv_unm x : inl h' (Unm F) x <-> inl h (Unm F) x /\ x <> o.
  Proof. rewrite sv_inl. intuition discriminate. Qed.

  Lemma sv_ingc x : ~ ingc h' x.
  Proof. unfold ingc. rewrite !sv_other by discriminate. apply Hg. Qed.

  Lemma sv_nf x : nf h' x <-> nf h x.
  Proof. unfold nf. rewrite sv_other by discriminate. reflexivity. Qed.

  Lemma sv_Mf d x : Mf h' d x <-> Mf h d x.
  Proof.
    unfold Mf. change (gc h') with (gc h). destruct (Nat.eq_dec d F) as [->|Hd].
    - rewrite sv_mrk. split; [|tauto]. intros [[H|H]|H]; auto. subst x. right. auto.
    - rewrite sv_other; [tauto|discriminate|congruence].
  Qed.

  Lemma sv_Uf d x : Uf h' d x -> Uf h d x.
  Proof.
    unfold Uf. pose proof (sv_ingc x). rewrite sv_inl. intuition discriminate.
  Qed.

  Lemma sv_rchf d x : rchf h' d x <-> rchf h d x.
  Proof.
    split; intros H.
    - revert H. apply rch_mono; [intro; apply sv_Mf|intro; apply sv_Uf|auto].
    - induction H as [x H|p x H IH He Hu].
      + apply rch_base, sv_Mf; auto.
      + destruct Hu as [Hu|[_ [_ Hu]]]; [|exfalso; eapply Hg; eauto].
        destruct (Nat.eq_dec d F) as [->|Hd].
        * destruct (Nat.eq_dec x o) as [->|Hx].
          -- apply rch_base. left. apply sv_mrk; auto.
          -- eapply rch_step; eauto. left. apply sv_unm; auto.
        * eapply rch_step; eauto. left. apply sv_other; auto; congruence.
  Qed.

  Lemma sv_Cf d x : Cf h d x -> Cf h' d x.
  Proof. intros H Hu. apply sv_rchf. apply H. apply sv_Uf; auto. Qed.

  Lemma sv_Cf' d x : Cf h' d x -> Cf h d x.
  Proof.
    intros H Hu. destruct (Uf_dec h' d x) as [Hu'|Hn]; [apply sv_rchf; auto|].
    apply rch_base. destruct Hu as [Hu|[_ [_ Hu]]]; [|exfalso; eapply Hg; eauto].
    destruct (Nat.eq_dec d F) as [->|Hd].
    - destruct (Nat.eq_dec x o) as [->|Hx].
      + right. auto.
      + exfalso. apply Hn. left. apply sv_unm; auto.
    - exfalso. apply Hn. left. apply sv_other; auto; congruence.
  Qed.

  Lemma save_inv : Inv h' R P B.
  Proof.
    constructor.
    - apply (relist_base I); try reflexivity.
      + apply geq_refl.
      + apply lists_ok_move_to. eapply inv_lists_ok; eauto.
      + intros x. split; intros [l H].
        * destruct (Nat.eq_dec x o) as [->|Hx]; [exists (Mrk F)|exists l]; apply sv_inl; auto.
        * apply sv_inl in H. destruct H as [[_ ->]|[H _]]; eauto. destruct sv_o; eauto.
      + intros d Hd. pose proof (i_gf _ _ _ _ I) as Hgf. unfold h', move_to, set_lists; cbn [lists].
        destruct (i_above _ _ _ _ I _ Hd) as [H1 [H2 H3]]. rewrite H1, H2, H3.
        assert (HF : d <> F) by (unfold F; lia).
        destruct (lid_eq_dec (Unm d) (Mrk F)); [discriminate|].
        destruct (lid_eq_dec (Mrk d) (Mrk F)) as [e|]; [injection e as e; contradiction|].
        destruct (lid_eq_dec (All d) (Mrk F)); [discriminate|]. auto.
      + intros x. apply sv_nf.
      + intros x d _. unfold fr. rewrite (sv_other (All d)), (sv_other GMrk), (sv_other GUnm) by discriminate.
        change (gc h') with (gc h). change (mem h') with (mem h).
        destruct (Nat.eq_dec d F) as [->|Hd].
        * rewrite sv_mrk, sv_unm. destruct (Nat.eq_dec x o) as [->|Hx]; [|tauto].
          pose proof sv_o. tauto.
        * rewrite (sv_other (Unm d)), (sv_other (Mrk d)) by congruence. tauto.
      + intros x d. apply sv_other; discriminate.
      + intros a x Ha He. rewrite sv_nf in *. eapply i_edge; eauto.
      + intros d x Hd Hr. rewrite sv_nf. eapply i_root; eauto.
    - intros d x g Hd Hx. rewrite sv_other in Hx by discriminate. eapply (i_all _ _ _ _ I); eauto.
    - intros d x g Hd Hx Hgx. rewrite sv_rchf in Hx. eapply (i_rch _ _ _ _ I); eauto.
    - intros x g Hx. exfalso. apply rch_in in Hx. eapply sv_ingc; eauto.
    - intros a x Hx. exfalso. apply rch_in in Hx. eapply sv_ingc; eauto.
    - intros x g Hx Hn Hgx. apply sv_rchf in Hx. eapply (i_g3 _ _ _ _ I); eauto.
    - intros d a x Hd Ha HC He. apply sv_Cf. eapply i_T; eauto; [apply sv_nf; auto|].
      apply sv_Cf'; auto.
    - intros d d' x Hd Hd' Hr. apply sv_Cf. eapply i_Troot; eauto.
    - intros a x Ha HC He Hx. exfalso. apply (sv_ingc x). right; auto.
    - intros d x Hd Hr Hx. exfalso. apply (sv_ingc x). right; auto.
    - apply (i_gf _ _ _ _ I).
    - apply (i_ggen _ _ _ _ I).
    - apply (i_gmax _ _ _ _ I).
    - apply (i_gmin _ _ _ _ I).
    - apply (i_nint _ _ _ _ I).
    - intros Hi. destruct (i_int _ _ _ _ I Hi) as [H1 [H2 H3]]. split; [auto|split; [|auto]].
      intros x Hx. change (gc h') with (gc h). fold F. rewrite sv_unm, sv_mrk.
      destruct (H2 x Hx) as [H|[H|H]]; [exfalso; apply (Hg x); left; auto| |auto].
      destruct (Nat.eq_dec x o); auto.
    - apply (i_next _ _ _ _ I).
    - intros d x Hd Hx. change (gc h') with (gc h).
      destruct (Nat.eq_dec x o) as [->|Hxo].
      + assert (Hd' : d = F).
        { rewrite !sv_inl in Hx. destruct Hx as [[[H _]|[_ H]]|[[H _]|[_ H]]]; try congruence. }
        subst d. destruct (i_int _ _ _ _ I Hint) as [_ [_ H3]]. exact H3.
      + apply (i_work _ _ _ _ I d x); auto. rewrite !sv_inl in Hx. intuition congruence.
  Qed.
End save.

Lemma move_list_to_nil h dst : move_list_to h dst [] = h.
Proof. reflexivity. Qed.

Lemma saves_inv os : forall h R P B, Inv h R P B -> (forall x, ~ ingc h x) ->
  g_int (gc h) = true -> (forall x, In x os -> In x (g_save (gc h))) ->
  let h' := move_list_to h (Mrk (g_frame (gc h))) os in
  Inv h' R P B /\ (forall x, ~ ingc h' x) /\
  gc h' = gc h /\ top h' = top h /\ frames h' = frames h /\ mem h' = mem h /\ fresh h' = fresh h /\
  freed h' = freed h /\
  (forall x, In x os -> inl h' (Mrk (g_frame (gc h))) x) /\
  (forall l x, l <> Mrk (g_frame (gc h)) -> l <> Unm (g_frame (gc h)) -> inl h' l x <-> inl h l x) /\
  (forall x, inl h (Mrk (g_frame (gc h))) x -> inl h' (Mrk (g_frame (gc h))) x).
Proof.
  induction os as [|o os IH]; intros h R P B I Hg Hi Hs.
  - cbv zeta. rewrite move_list_to_nil. split; [exact I|]. split; [exact Hg|].
    repeat split; auto. intros x [].
  - cbn [move_list_to fold_left]. fold (move_list_to (move_to h (Mrk (g_frame (gc h))) o) (Mrk (g_frame (gc h))) os).
    assert (Ho : In o (g_save (gc h))) by (apply Hs; cbn; auto).
    pose proof (save_inv I Hg o Hi Ho) as I1.
    destruct (IH _ R P B I1) as [A1 [A2 [A3 [A4 [A5 [A6 [A7 [A8 [A9 [A10 A11]]]]]]]]]]; auto.
    { apply (sv_ingc I Hg o Hi Ho). }
    { intros x Hx. apply Hs. cbn; auto. }
    change (gc (move_to h (Mrk (g_frame (gc h))) o)) with (gc h) in *.
    split; [exact A1|]. split; [exact A2|]. repeat split; auto.
    + intros x [->|Hx]; auto. apply A11. apply sv_mrk. auto.
    + intros H1. apply A10 in H1; auto. apply (sv_other I Hg o Hi Ho) in H1; auto.
    + intros H1. apply A10; auto. apply (sv_other I Hg o Hi Ho); auto.
    + intros x Hx. apply A11. apply sv_mrk. auto.
Qed.

(** ** Start of a cycle on frame [n] *)

Section start.
  Context {h : heap} {R : nat -> list value} {P : nat -> list nat} {B : list (nat * nat)}.
  Context (I : Inv h R P B) (Hg : forall x, ~ ingc h x)
          (Hsv : g_int (gc h) = true -> forall x, In x (g_save (gc h)) -> inl h (Mrk (g_frame (gc h))) x)
          (n : nat) (Hn : g_next (gc h) = Some n).
  Let f := frames h n.
  Let nx := if Nat.eq_dec n (top h) then None else Some (S n).
  Let g' := mk_gc (gen f) (min_gen f) (max_gen f) n nx false [].
  Let h' := move_all (move_all (set_gc h g') GMrk (Mrk n)) GUnm (Unm n).

  Lemma st_nx : n <= top h.
  Proof. apply (i_next _ _ _ _ I); auto. Qed.

  Lemma st_inl l x : inl h' l x <->
    (l = GMrk /\ inl h (Mrk n) x) \/ (l = GUnm /\ inl h (Unm n) x) \/
    (l <> GMrk /\ l <> GUnm /\ l <> Mrk n /\ l <> Unm n /\ inl h l x).
  Proof.
    unfold h'. rewrite inl_move_all by discriminate.
    rewrite !inl_move_all by discriminate.
    assert (E : forall l, inl (set_gc h g') l x <-> inl h l x) by reflexivity.
    rewrite !E.
    assert (N1 : ~ inl h GMrk x) by (intros H; apply (Hg x); left; auto).
    assert (N2 : ~ inl h GUnm x) by (intros H; apply (Hg x); right; auto).
    destruct l; intuition (try discriminate; try congruence).
  Qed.

  Lemma st_gmrk x : inl h' GMrk x <-> inl h (Mrk n) x.
  Proof. rewrite st_inl. intuition congruence. Qed.
  Lemma st_gunm x : inl h' GUnm x <-> inl h (Unm n) x.
  Proof. rewrite st_inl. intuition congruence. Qed.
  Lemma st_other l x : l <> GMrk -> l <> GUnm -> l <> Mrk n -> l <> Unm n -> (inl h' l x <-> inl h l x).
  Proof. rewrite st_inl. intuition congruence. Qed.
  Lemma st_mrk_n x : ~ inl h' (Mrk n) x.
  Proof. rewrite st_inl. intuition congruence. Qed.
  Lemma st_unm_n x : ~ inl h' (Unm n) x.
  Proof. rewrite st_inl. intuition congruence. Qed.

  Lemma st_Uf0 d x : Uf h d x <-> inl h (Unm d) x.
  Proof. unfold Uf. pose proof (Hg x). tauto. Qed.
  Lemma st_Mf0 d x : Mf h d x <-> inl h (Mrk d) x.
  Proof.
    unfold Mf. split; [|tauto]. intros [H|[H1 [<- H2]]]; auto.
  Qed.
  Lemma st_Uf d x : Uf h' d x <-> d <> n /\ inl h (Unm d) x.
  Proof.
    unfold Uf. change (gc h') with g'. cbn [g_int g'].
    destruct (Nat.eq_dec d n) as [->|Hd].
    - pose proof (st_unm_n x). intuition discriminate.
    - rewrite st_other by congruence. intuition discriminate.
  Qed.
  Lemma st_Mf d x : Mf h' d x <-> d <> n /\ inl h (Mrk d) x.
  Proof.
    unfold Mf. change (gc h') with g'. cbn [g_int g'].
    destruct (Nat.eq_dec d n) as [->|Hd].
    - pose proof (st_mrk_n x). intuition discriminate.
    - rewrite st_other by congruence. intuition discriminate.
  Qed.

  Lemma st_rchf_n x : ~ rchf h' n x.
  Proof. intros H. induction H; auto. apply st_Mf in H. tauto. Qed.
  Lemma st_rchf d x : d <> n -> (rchf h' d x <-> rchf h d x).
  Proof.
    intros Hd. apply rch_iff.
    - intros y. rewrite st_Mf, st_Mf0. tauto.
    - intros y. rewrite st_Uf, st_Uf0. tauto.
    - intros a b. reflexivity.
  Qed.
  Lemma st_gpr x : gpr h' x <-> rchf h n x.
  Proof.
    apply rch_iff.
    - intros y. rewrite st_gmrk, st_Mf0. tauto.
    - intros y. rewrite st_gunm, st_Uf0. tauto.
    - intros a b. reflexivity.
  Qed.
  Lemma st_Cf d x : Cf h d x -> Cf h' d x.
  Proof.
    intros H Hu. apply st_Uf in Hu. apply st_rchf; [tauto|]. apply H. apply st_Uf0. tauto.
  Qed.
  Lemma st_Cf' d x : d <> n -> Cf h' d x -> Cf h d x.
  Proof.
    intros Hd H Hu. apply st_Uf0 in Hu. apply st_rchf; [tauto|]. apply H. apply st_Uf. tauto.
  Qed.
  Lemma st_Cg x : Cg h' x <-> Cf h n x.
  Proof. unfold Cg, Cf. rewrite st_gunm, st_gpr, st_Uf0. tauto. Qed.

  Lemma st_free x : inl h' GFree x <-> inl h GFree x.
  Proof. apply st_other; discriminate. Qed.
  Lemma st_nf x : nf h' x <-> nf h x.
  Proof. unfold nf. rewrite st_free. reflexivity. Qed.

  Lemma start_inv : Inv h' R P B.
  Proof.
    pose proof st_nx as Hnt.
    constructor.
    - apply (relist_base I); try reflexivity.
      + apply geq_refl.
      + apply lists_ok_move_all; [discriminate|]. apply lists_ok_move_all; [discriminate|].
        apply (inv_lists_ok _ _ _ _ I).
      + intros x. split; intros [l H].
        * destruct (lid_eq_dec l (Mrk n)) as [->|H1]; [exists GMrk; apply st_gmrk; auto|].
          destruct (lid_eq_dec l (Unm n)) as [->|H2]; [exists GUnm; apply st_gunm; auto|].
          destruct (lid_eq_dec l GMrk) as [->|H3]; [exfalso; apply (Hg x); left; auto|].
          destruct (lid_eq_dec l GUnm) as [->|H4]; [exfalso; apply (Hg x); right; auto|].
          exists l. apply st_other; auto.
        * rewrite st_inl in H. destruct H as [[_ H]|[[_ H]|[_ [_ [_ [_ H]]]]]]; eauto.
      + intros d Hd. destruct (i_above _ _ _ _ I _ Hd) as [H1 [H2 H3]].
        assert (He : forall l, lists h l = [] -> l <> GMrk -> l <> GUnm -> l <> Mrk n -> l <> Unm n -> lists h' l = []).
        { intros l He N1 N2 N3 N4. destruct (lists h' l) as [|x t] eqn:E; auto. exfalso.
          assert (Hx : inl h' l x) by (unfold inl; rewrite E; cbn; auto).
          rewrite st_other in Hx by auto. unfold inl in Hx. rewrite He in Hx. auto. }
        assert (d <> n) by lia.
        repeat split; apply He; auto; congruence.
      + intros x. apply st_nf.
      + intros x d _. unfold fr. rewrite st_gmrk, st_gunm.
        change (mem h') with (mem h). change (gc h') with g'. cbn [g_frame g'].
        rewrite (st_other (All d)) by discriminate.
        pose proof (Hg x) as Hgx. unfold ingc in Hgx.
        destruct (Nat.eq_dec d n) as [->|Hd].
        * pose proof (st_mrk_n x). pose proof (st_unm_n x). intuition.
        * rewrite (st_other (Unm d)), (st_other (Mrk d)) by congruence. intuition congruence.
      + intros x d. apply st_other; discriminate.
      + intros a x Ha He. rewrite st_nf in *. eapply i_edge; eauto.
      + intros d x Hd Hr. rewrite st_nf. eapply i_root; eauto.
    - intros d x g Hd Hx Hgx. rewrite st_other in Hx by discriminate. eapply (i_all _ _ _ _ I); eauto.
    - intros d x g Hd Hx Hgx. destruct (Nat.eq_dec d n) as [->|Hdn]; [exfalso; eapply st_rchf_n; eauto|].
      apply st_rchf in Hx; auto. eapply (i_rch _ _ _ _ I); eauto.
    - intros x g Hx Hgx. apply st_gpr in Hx. apply (i_rch _ _ _ _ I n x g); auto.
    - intros o x Hx He. apply st_gpr in Hx. change (gc h') with g'. cbn [g_min g_gen g'].
      assert (Ho : inl h (Mrk n) o \/ inl h (Unm n) o).
      { apply rch_in in Hx. rewrite st_Mf0, st_Uf0 in Hx. exact Hx. }
      assert (Honf : nf h o) by (destruct Ho as [Ho|Ho]; eapply listed_nf; eauto; discriminate).
      destruct (i_edge _ _ _ _ I _ _ Honf He) as [Hxnf Hfr].
      assert (Hfro : fr h o n) by (unfold fr; tauto).
      destruct (Hfr _ Hfro) as [d [Hd Hfx]].
      unfold ingc. rewrite st_gmrk, st_gunm.
      destruct (Nat.eq_dec d n) as [->|Hdn].
      + unfold fr in Hfx. destruct Hfx as [H|[H|[H|[[H _]|H]]]]; try (left; tauto); right; intros g Hgx.
        * right. eapply (i_all _ _ _ _ I); eauto.
        * exfalso. eapply Hg; eauto.
        * exfalso. eapply genx_stack; eauto.
      + right. intros g Hgx. left.
        assert (HC : Cf h d o).
        { intros Hu. exfalso. apply st_Uf0 in Hu.
          destruct Ho as [Ho|Ho]; pose proof (i_uniq _ _ _ _ I _ _ _ Hu Ho); congruence. }
        assert (Hdt : d <= top h) by lia.
        pose proof (i_T _ _ _ _ I _ _ _ Hdt Honf HC He) as HCx.
        assert (HGx : Cg h x) by (intros Hu; exfalso; apply (Hg x); right; auto).
        pose proof (gen_range I _ _ _ Hfx HCx HGx Hgx) as Hr.
        assert (Hlt : d < n) by lia.
        pose proof (chain I _ _ Hlt Hnt). unfold f. lia.
    - intros x g Hx. exfalso. eapply st_rchf_n; eauto.
    - intros d o x Hd Ho HC He. apply st_nf in Ho.
      destruct (Nat.eq_dec d n) as [->|Hdn].
      + intros Hu. apply st_Uf in Hu. tauto.
      + apply st_Cf. eapply (i_T _ _ _ _ I d o x); eauto. apply st_Cf'; auto.
    - intros d d' x Hd Hd' Hr. apply st_Cf. eapply i_Troot; eauto.
    - intros o x Ho HC He. rewrite st_nf, st_Cg in *. eapply i_T; eauto.
    - intros d x Hd Hr. rewrite st_Cg. eapply i_Troot; eauto.
    - exact Hnt.
    - pose proof (i_gens _ _ _ _ I _ Hnt). exact H.
    - change (gc h') with g'. cbn [g_max g_frame g']. apply le_n.
    - change (gc h') with g'. cbn [g_min g_frame g']. apply le_n.
    - intros _. split; reflexivity.
    - intros H. discriminate H.
    - change (gc h') with g'. cbn [g_next g']. unfold nx. change (top h') with (top h).
      destruct (Nat.eq_dec n (top h)); intros m Hm; [discriminate|]. injection Hm as <-. lia.
    - change (gc h') with g'. cbn [g_next g']. intros d x Hd Hx. change (top h') with (top h) in Hd.
      destruct (Nat.eq_dec d n) as [->|Hdn].
      + exfalso. destruct Hx; [eapply st_unm_n|eapply st_mrk_n]; eauto.
      + rewrite !st_other in Hx by congruence.
        destruct (i_work _ _ _ _ I d x Hd Hx) as [m [Hm Hle]].
        rewrite Hn in Hm. injection Hm as <-.
        unfold nx. destruct (Nat.eq_dec n (top h)); [lia|]. exists (S n). split; auto. lia.
  Qed.
End start.

(** ** The whole step *)

(** What one collector step leaves alone. *)
Record quiet (h h' : heap) : Prop := {
  q_top : top h' = top h;
  q_frames : frames h' = frames h;
  q_fresh : fresh h' = fresh h;
  q_mem : forall x a, mem h x = Some a -> mem h' x = None \/ exists b, mem h' x = Some b /\ obj_geq a b;
  q_none : forall x, mem h x = None -> mem h' x = None;
}.

Lemma quiet_refl h : quiet h h.
Proof. constructor; auto. intros x a H. right. exists a. split; auto. unfold obj_geq; auto. Qed.

Lemma obj_geq_trans a b c : obj_geq a b -> obj_geq b c -> obj_geq a c.
Proof.
  intros [H1 [H2 H3]] [H4 [H5 H6]]. repeat split; try congruence.
  destruct H3 as [H3|[g1 [g2 [H3 H3']]]], H6 as [H6|[g3 [g4 [H6 H6']]]].
  - left; congruence.
  - right. exists g3, g4. split; congruence.
  - right. exists g1, g2. split; congruence.
  - right. exists g1, g4. split; congruence.
Qed.

Lemma quiet_trans h1 h2 h3 : quiet h1 h2 -> quiet h2 h3 -> quiet h1 h3.
Proof.
  intros [A1 A2 A3 A4 A5] [B1 B2 B3 B4 B5]. constructor; try congruence.
  - intros x a H. destruct (A4 _ _ H) as [H'|[b [H' Hb]]]; [left; auto|].
    destruct (B4 _ _ H') as [H''|[c [H'' Hc]]]; [left; auto|right].
    exists c. split; auto. eapply obj_geq_trans; eauto.
  - auto.
Qed.

Lemma quiet_geq h h' : top h' = top h -> frames h' = frames h -> fresh h' = fresh h ->
  geq (mem h) (mem h') -> quiet h h'.
Proof.
  intros H1 H2 H3 H4. constructor; auto.
  - intros x a H. right. eapply geq_some; eauto.
  - intros x H. specialize (H4 x). rewrite H in H4. destruct (mem h' x); tauto.
Qed.

Lemma free_one_quiet h : quiet h (free_one h).
Proof.
  destruct (free_one_cases h) as [[_ ->]|[o [r [_ ->]]]]; [apply quiet_refl|].
  constructor; auto; cbn [mem].
  - intros x a H. unfold upd. destruct (Nat.eq_dec x o); auto. right. exists a. split; auto.
    unfold obj_geq; auto.
  - intros x H. unfold upd. destruct (Nat.eq_dec x o); auto.
Qed.

Theorem incr_gc_inv h R P B : Inv h R P B ->
  exists h', incr_gc h = Some h' /\ Inv h' R P B /\ quiet h h'.
Proof.
  intros I0. unfold incr_gc.
  assert (I1 := free_one_inv _ _ _ _ (free_one_inv _ _ _ _ I0)).
  assert (Q1 : quiet h (free_one (free_one h))).
  { eapply quiet_trans; apply free_one_quiet. }
  set (k := free_one (free_one h)) in *. clearbody k. clear I0.
  enough (exists h', match get k GMrk with
    | (Some o, h1) =>
      match mem h1 o with
      | Some ob =>
        match oloc ob with
        | LGc _ =>
          match mark_refs (set_mem h1 (upd (mem h1) o (Some (mk_obj (okind ob) (ofields ob) (LGc (g_gen (gc k))))))) (ofields ob) with
          | Some h3 => Some (move_to h3 (if g_int (gc k) then Unm (g_frame (gc k)) else All (g_frame (gc k))) o)
          | None => None
          end
        | LStack _ _ => None
        end
      | None => None
      end
    | (None, h1) =>
      match g_next (gc k) with
      | None => Some (move_list_to (move_all h1 GFree GUnm) (Mrk (g_frame (gc k))) (g_save (gc k)))
      | Some n =>
        let h3 := move_list_to (move_all h1 GFree GUnm) (Mrk (g_frame (gc k))) (g_save (gc k)) in
        Some (move_all (move_all (set_gc h3 (mk_gc (gen (frames h3 n)) (min_gen (frames h3 n)) (max_gen (frames h3 n)) n
           (if Nat.eq_dec n (top h3) then None else Some (S n)) false [])) GMrk (Mrk n)) GUnm (Unm n))
      end
    end = Some h' /\ Inv h' R P B /\ quiet k h') as [h' [E [I' Q']]].
  { exists h'. split; [exact E|]. split; [exact I'|]. eapply quiet_trans; eauto. }
  unfold get. destruct (lists k GMrk) as [|o r] eqn:EG.
  - (* end of cycle *)
    pose proof (finish_inv I1 EG) as I2. pose proof (fi_ingc EG) as G2.
    set (k2 := move_all k GFree GUnm) in *.
    change (gc k) with (gc k2).
    assert (Q2 : quiet k k2) by (apply quiet_geq; auto; apply geq_refl).
    assert (HS : exists k3, move_list_to k2 (Mrk (g_frame (gc k2))) (g_save (gc k2)) = k3 /\
      Inv k3 R P B /\ (forall x, ~ ingc k3 x) /\ quiet k2 k3 /\ gc k3 = gc k2 /\
      (g_int (gc k3) = true -> forall x, In x (g_save (gc k3)) -> inl k3 (Mrk (g_frame (gc k3))) x)).
    { destruct (g_int (gc k2)) eqn:Ei.
      - destruct (saves_inv (g_save (gc k2)) k2 R P B I2 G2 Ei) as
          [A1 [A2 [A3 [A4 [A5 [A6 [A7 [A8 [A9 _]]]]]]]]]; auto.
        eexists. split; [reflexivity|]. split; [exact A1|]. split; [exact A2|].
        split; [|split; [exact A3|]].
        + apply quiet_geq; auto. rewrite A6. apply geq_refl.
        + rewrite A3. intros _ x Hx. auto.
      - destruct (i_nint _ _ _ _ I2 Ei) as [Es _]. rewrite Es.
        exists k2. split; [reflexivity|]. split; [exact I2|]. split; [exact G2|].
        split; [apply quiet_refl|]. split; [auto|]. congruence. }
    destruct HS as [k3 [-> [I3 [G3 [Q3 [E3 S3]]]]]]. rewrite <- E3.
    destruct (g_next (gc k3)) as [n|] eqn:En.
    + cbv zeta. eexists. split; [reflexivity|]. split; [apply (start_inv I3 G3 S3 n En)|].
      eapply quiet_trans; [exact Q2|]. eapply quiet_trans; [exact Q3|].
      apply quiet_geq; auto. apply geq_refl.
    + exists k3. split; [reflexivity|]. split; [exact I3|]. eapply quiet_trans; eauto.
  - (* traverse *)
    assert (Ho : inl k GMrk o) by (unfold inl; rewrite EG; cbn; auto).
    destruct (i_gcobj _ _ _ _ I1 _ _ Ho) as [g0 [ob [Hob Hlo]]].
    cbn [mem set_lists]. rewrite Hob, Hlo.
    assert (Honf : nf k o) by (eapply listed_nf; eauto; discriminate).
    set (m2 := upd (mem k) o (Some (mk_obj (okind ob) (ofields ob) (LGc (g_gen (gc k)))))).
    set (k2 := set_mem (set_lists k (updl (lists k) GMrk r)) m2).
    assert (Hnr : ~ In o r /\ NoDup r).
    { pose proof (i_nodup _ _ _ _ I1 GMrk) as H. rewrite EG in H. inversion H; auto. }
    assert (Hk2 : forall l x, inl k2 l x <-> inl k l x /\ (x <> o)).
    { intros l x. unfold inl, k2, updl; cbn [lists set_mem set_lists].
      destruct (lid_eq_dec l GMrk) as [->|Hl].
      - rewrite EG; cbn [In]. intuition congruence.
      - split; [|tauto]. intros H. split; auto. intros ->. apply Hl. eapply i_uniq; eauto. }
    assert (Hok2 : lists_ok k2).
    { split.
      - intros l l' x H1 H2. apply Hk2 in H1, H2. apply (i_uniq _ _ _ _ I1 l l' x); tauto.
      - intros l. unfold k2, updl; cbn [lists set_mem set_lists].
        destruct (lid_eq_dec l GMrk); [tauto|]. apply (i_nodup _ _ _ _ I1). }
    assert (Hgq : geq (mem k) m2).
    { intros x. unfold m2, upd. destruct (Nat.eq_dec x o) as [->|Hx].
      - rewrite Hob. unfold obj_geq; cbn. repeat split; auto. right. eauto.
      - destruct (mem k x); auto. unfold obj_geq; auto. }
    destruct (mark_refs_spec (ofields ob) k2) as [L [HL1 [HL2 HL3]]].
    { intros Hu. assert (HB : exists d, In (o, d) B) by (eapply i_uninit; eauto).
      destruct HB as [d HB]. pose proof (i_B _ _ _ _ I1 _ _ HB) as Hd.
      pose proof (i_uniq _ _ _ _ I1 _ _ _ Hd Ho). discriminate. }
    { intros x Hx. eapply geq_gcobj; [exact Hgq|]. eapply i_gcedge; eauto.
      - exists g0, ob; auto.
      - exists ob; auto. }
    { exact Hok2. }
    rewrite HL1. eexists. split; [reflexivity|].
    set (dst := if g_int (gc k) then Unm (g_frame (gc k)) else All (g_frame (gc k))).
    set (k4 := move_to (set_lists k2 L) dst o).
    (* the marked objects *)
    assert (HM : forall x, x <> o -> (marks k2 (ofields ob) x <-> edge (mem k) o x /\ ingc k x)).
    { intros x Hx. unfold marks. change (gc k2) with (gc k). change (mem k2) with m2.
      assert (Hgx : forall g, genx m2 x g <-> genx (mem k) x g).
      { intros g. unfold genx, m2, upd. destruct (Nat.eq_dec x o); [contradiction|]. tauto. }
      assert (Hex : edge (mem k) o x <-> In (VObj x) (ofields ob)).
      { split; [|intros; exists ob; auto]. intros [b [Hb Hi]]. assert (b = ob) by congruence. subst b.
        destruct Hi as [Hi|[d Hi]]; [auto|congruence]. }
      rewrite Hex. split.
      - intros [Hi [g [Hg1 [Hg2 Hg3]]]]. split; auto. apply Hgx in Hg1.
        apply Hex in Hi. assert (Hp : gpr k o) by (apply rch_base; auto).
        destruct (i_gout _ _ _ _ I1 _ _ Hp Hi) as [H|H]; auto.
        specialize (H _ Hg1). lia.
      - intros [Hi Hg]. split; auto. apply Hex in Hi.
        assert (Hp : gpr k x).
        { destruct Hg as [Hg|Hg]; [apply rch_base; auto|].
          eapply rch_step; [apply rch_base; exact Ho|exact Hi|auto]. }
        assert (Hgo : gcobj (mem k) x) by (destruct Hg as [Hg|Hg]; eapply i_gcobj; eauto).
        destruct Hgo as [g Hgg]. exists g. rewrite Hgx. split; auto.
        pose proof (i_gpr _ _ _ _ I1 _ _ Hp Hgg). lia. }
    assert (HMo : ~ marks k2 (ofields ob) o).
    { intros [_ [g [[b [Hb1 Hb2]] [_ Hb3]]]]. change (mem k2) with m2 in Hb1.
      unfold m2, upd in Hb1. destruct (Nat.eq_dec o o); [|congruence].
      injection Hb1 as <-. cbn in Hb2. change (gc k2) with (gc k) in Hb3. congruence. }
    assert (HSd : forall x, {edge (mem k) o x /\ ingc k x} + {~ (edge (mem k) o x /\ ingc k x)}).
    { intros x. destruct (ingc_dec k x) as [Hi|Hi]; [|right; tauto].
      destruct (in_dec (fun a b : value => ltac:(decide equality; apply Nat.eq_dec)) (VObj x) (ofields ob)) as [Hx|Hx].
      - left. split; auto. exists ob; auto.
      - right. intros [[b [Hb [Hi'|[d Hi']]]] _]; assert (b = ob) by congruence; subst b; [auto|congruence]. }
    assert (Hk4 : forall l x, inl k4 l x <->
      (l = dst /\ x = o) \/ (x <> o /\ (((edge (mem k) o x /\ ingc k x) /\ l = GMrk) \/
                                        (~ (edge (mem k) o x /\ ingc k x) /\ inl k l x)))).
    { intros l x. unfold k4. rewrite inl_move_to.
      assert (E : inl (set_lists k2 L) l x <-> In x (L l)) by reflexivity.
      rewrite E, HL3, Hk2.
      destruct (Nat.eq_dec x o) as [->|Hx]; [tauto|].
      rewrite (HM x Hx). tauto. }
    split.
    + eapply (traverse_inv I1 o ob Ho Hob (h' := k4)); try reflexivity.
      * apply lists_ok_move_to. exact HL2.
      * exact HSd.
      * exact Hk4.
    + apply quiet_geq; auto.
Qed.

Lemma mark_refs_same vs : forall h h', mark_refs h vs = Some h' ->
  mem h' = mem h /\ fresh h' = fresh h /\ top h' = top h /\ gc h' = gc h.
Proof.
  induction vs as [|v vs IH]; intros h h' H; cbn in H; [injection H as <-; auto|].
  destruct (mark_ref h v) as [h1|] eqn:E; [|discriminate].
  destruct (IH _ _ H) as [H1 [H2 [H3 H4]]]. rewrite H1, H2, H3, H4.
  unfold mark_ref in E. destruct v as [| |x|]; try discriminate; try (injection E as <-; auto).
  destruct (mem h x) as [ob|]; [|discriminate]. destruct (oloc ob); [discriminate|].
  destruct (_ && _); injection E as <-; auto.
Qed.
