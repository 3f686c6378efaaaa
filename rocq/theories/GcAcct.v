(** * Accounting of GC objects: every one is in exactly one list until it is freed,
    and it is freed once.  This invariant is independent of the one in GcInv.v and holds
    for every history, whether or not the client respects the contract. *)

From Coq Require Import Arith List Bool Lia Permutation.
From Verif Require Import GcModel GcInv GcStep GcPop GcClient.
Import ListNotations.

Definition lid_ok (h : heap) (l : lid) : Prop :=
  match l with Unm d | Mrk d | All d => d <= top h | _ => True end.

(** [E]: objects temporarily in no list. *)
Record LI (E : list nat) (h : heap) : Prop := {
  l_uniq : forall l l' x, inl h l x -> inl h l' x -> l = l';
  l_nodup : forall l, NoDup (lists h l);
  l_above : forall l x, inl h l x -> lid_ok h l;
  l_gcobj : forall l x, inl h l x -> gcobj (mem h) x;
  l_listed : forall x, gcobj (mem h) x -> In x E \/ exists l, inl h l x;
  l_E : forall x l, In x E -> inl h l x -> False;
  l_fresh : forall x ob, mem h x = Some ob -> x < fresh h;
  l_stack : forall x d, stackobj (mem h) x d -> d <= top h;
  l_fnd : NoDup (freed h);
  l_freed : forall x, In x (freed h) -> mem h x = None /\ x < fresh h;
  l_gf : g_frame (gc h) <= top h;
  l_next : forall n, g_next (gc h) = Some n -> n <= top h;
  l_save : forall x, In x (g_save (gc h)) -> In x E \/ exists l, inl h l x /\ l <> GFree /\ l <> GUnm;
  l_int : g_int (gc h) = false -> g_save (gc h) = []
}.

(** What an operation does to the GC objects: those there before are there or freed. *)
Definition acct (h h' : heap) : Prop :=
  fresh h <= fresh h' /\
  (forall x, gcobj (mem h) x -> gcobj (mem h') x \/ In x (freed h')) /\
  (forall x, In x (freed h) -> In x (freed h')).

Lemma acct_refl h : acct h h.
Proof. split; auto. Qed.
Lemma acct_trans a b c : acct a b -> acct b c -> acct a c.
Proof.
  intros [A1 [A2 A3]] [B1 [B2 B3]]. split; [lia|]. split; [|auto].
  intros x Hx. destruct (A2 x Hx) as [H|H]; auto.
Qed.
Lemma acct_same h h' : mem h' = mem h -> fresh h' = fresh h -> freed h' = freed h -> acct h h'.
Proof. intros H1 H2 H3. unfold acct. rewrite H1, H2, H3. auto. Qed.

(** ** List moves *)

Lemma li_move_to E h dst x : LI E h -> gcobj (mem h) x -> lid_ok h dst -> dst <> GFree -> dst <> GUnm ->
  LI (rem x E) (move_to h dst x).
Proof.
  intros I Hx Hd N1 N2. destruct I. constructor; auto.
  - intros l l' y. rewrite !inl_move_to. intros [[-> ->]|[H1 H2]] [[-> Eq]|[H3 H4]]; try congruence; eauto.
  - intros l. unfold move_to. cbn. pose proof (nodup_rem x _ (l_nodup0 l)).
    destruct (lid_eq_dec l dst); auto. constructor; auto. rewrite in_rem. tauto.
  - intros l y. rewrite inl_move_to. intros [[-> ->]|[H1 H2]]; [exact Hd|exact (l_above0 _ _ H1)].
  - intros l y. rewrite inl_move_to. intros [[-> ->]|[H1 H2]]; eauto.
  - intros y Hy. destruct (Nat.eq_dec y x) as [->|Hn].
    + right. exists dst. rewrite inl_move_to. auto.
    + destruct (l_listed0 y Hy) as [He|[l Hl]]; [left; rewrite in_rem; auto|].
      right. exists l. rewrite inl_move_to. auto.
  - intros y l. rewrite in_rem, inl_move_to. intros [H1 H2] [[-> ->]|[H3 H4]]; eauto.
  - intros y Hy. destruct (Nat.eq_dec y x) as [->|Hn].
    + right. exists dst. rewrite inl_move_to. auto.
    + destruct (l_save0 y Hy) as [He|[l [Hl Hl']]]; [left; rewrite in_rem; auto|].
      right. exists l. rewrite inl_move_to. auto.
Qed.

Lemma li_move_list_to dst os : forall h, LI [] h -> (forall x, In x os -> gcobj (mem h) x) ->
  lid_ok h dst -> dst <> GFree -> dst <> GUnm -> LI [] (move_list_to h dst os).
Proof.
  induction os as [|o os IH]; intros h I Ho Hd N1 N2; [exact I|].
  unfold move_list_to. cbn [fold_left]. apply IH; auto.
  - apply (li_move_to [] h dst o); auto. apply Ho; cbn; auto.
  - intros x Hx. apply Ho; cbn; auto.
Qed.

Lemma mlt_same dst os : forall h, let h' := move_list_to h dst os in
  mem h' = mem h /\ fresh h' = fresh h /\ freed h' = freed h /\ top h' = top h /\ gc h' = gc h /\
  frames h' = frames h.
Proof.
  induction os as [|o os IH]; intros h; [cbn; tauto|].
  unfold move_list_to. cbn [fold_left]. destruct (IH (move_to h dst o)) as [H1 [H2 [H3 [H4 [H5 H6]]]]].
  unfold move_list_to in *. rewrite H1, H2, H3, H4, H5, H6. cbn. tauto.
Qed.

Lemma mlt_in dst os : forall h x, In x os -> inl (move_list_to h dst os) dst x.
Proof.
  induction os as [|o os IH]; intros h x Hx; [destruct Hx|].
  unfold move_list_to. cbn [fold_left]. destruct (in_dec Nat.eq_dec x os) as [Hi|Hn]; [apply IH; auto|].
  destruct Hx as [<-|Hx]; [|tauto].
  assert (G : forall os h, inl h dst o -> ~ In o os -> inl (fold_left (fun h o => move_to h dst o) os h) dst o).
  { clear. induction os as [|p os IH]; intros h H N; cbn [fold_left]; auto.
    apply IH; [|cbn in N; tauto]. rewrite inl_move_to. right. split; auto. cbn in N. intros ->. tauto. }
  apply G; auto. rewrite inl_move_to. auto.
Qed.

Lemma li_move_all h dst src : LI [] h -> dst <> src -> lid_ok h dst ->
  (dst <> GFree /\ dst <> GUnm) \/ g_save (gc h) = [] \/ src = GUnm ->
  LI [] (move_all h dst src).
Proof.
  intros I Hn Hd Hs. destruct I.
  assert (L := fun l x => inl_move_all h dst src l x Hn).
  constructor; auto.
  - intros l l' y. rewrite !L. intros [[-> A]|[A1 [A2 A]]] [[-> C]|[C1 [C2 C]]]; auto.
    + destruct A as [A|A]; assert (Eq := l_uniq0 _ _ _ A C); congruence.
    + destruct C as [C|C]; assert (Eq := l_uniq0 _ _ _ A C); congruence.
    + eauto.
  - intros l. unfold move_all, updl. cbn. destruct (lid_eq_dec l src); [constructor|].
    destruct (lid_eq_dec l dst); auto. apply nodup_app; auto.
    intros x H1 H2. apply Hn. eapply l_uniq0; eauto.
  - intros l y. rewrite L. intros [[-> A]|[A1 [A2 A]]]; [exact Hd|exact (l_above0 _ _ A)].
  - intros l y. rewrite L. intros [[-> [A|A]]|[A1 [A2 A]]]; eauto.
  - intros y Hy. destruct (l_listed0 y Hy) as [[]|[l Hl]]. right.
    destruct (lid_eq_dec l src) as [->|]; [exists dst; rewrite L; auto|].
    destruct (lid_eq_dec l dst) as [->|]; [exists dst; rewrite L; auto|exists l; rewrite L; auto].
  - intros y Hy. cbn [gc move_all set_lists] in Hy. destruct Hs as [[N1 N2]|[Hs|Hs]].
    + destruct (l_save0 y Hy) as [[]|[l [Hl Hl']]]. right.
      destruct (lid_eq_dec l src) as [->|]; [exists dst; rewrite L; auto|].
      destruct (lid_eq_dec l dst) as [->|]; [exists dst; rewrite L; auto|exists l; rewrite L; auto].
    + rewrite Hs in Hy. destruct Hy.
    + destruct (l_save0 y Hy) as [[]|[l [Hl [Hl1 Hl2]]]]. right. exists l.
      destruct (lid_eq_dec l dst) as [->|]; rewrite L; subst; auto.
Qed.

Lemma li_set_gc E h g : LI E h -> g_frame g <= top h -> (forall n, g_next g = Some n -> n <= top h) ->
  (forall x, In x (g_save g) -> In x E \/ exists l, inl h l x /\ l <> GFree /\ l <> GUnm) ->
  (g_int g = false -> g_save g = []) -> LI E (set_gc h g).
Proof. intros I H1 H2 H3 H4. destruct I. constructor; auto. Qed.

Lemma li_set_frames E h f : LI E h -> LI E (set_frames h f).
Proof. intros I. destruct I. constructor; auto. Qed.

(** ** The collector *)

Lemma li_free_one h : LI [] h -> LI [] (free_one h) /\ acct h (free_one h) /\
  top (free_one h) = top h /\ frames (free_one h) = frames h /\ gc (free_one h) = gc h.
Proof.
  intros I. unfold free_one, get. destruct (lists h GFree) as [|o r] eqn:Ef.
  - split; [exact I|]. split; [apply acct_refl|auto].
  - set (h' := set_freed _ _).
    assert (Ho : inl h GFree o) by (unfold inl; rewrite Ef; cbn; auto).
    pose proof (l_nodup _ _ I GFree) as Nd. rewrite Ef in Nd. inversion Nd; subst.
    destruct (l_gcobj _ _ I _ _ Ho) as [g0 [ob [Hob Hlob]]].
    assert (Hl : forall l x, inl h' l x <-> inl h l x /\ x <> o).
    { intros l x. unfold inl, h'. cbn. unfold updl. destruct (lid_eq_dec l GFree) as [->|Hn].
      - rewrite Ef. cbn. split; [intros Hx; split; [auto|intros ->; auto]|intros [[<-|Hx] Hn]; [congruence|auto]].
      - split; [|tauto]. intros Hx. split; auto. intros ->. apply Hn. eapply l_uniq; eauto. }
    assert (Hm : forall x, x <> o -> mem h' x = mem h x).
    { intros x Hx. unfold h'. cbn. unfold upd. destruct (Nat.eq_dec x o); congruence. }
    assert (Hmo : mem h' o = None).
    { unfold h'. cbn. unfold upd. destruct (Nat.eq_dec o o); congruence. }
    assert (Hg : forall x, gcobj (mem h') x <-> gcobj (mem h) x /\ x <> o).
    { intros x. unfold gcobj, genx. destruct (Nat.eq_dec x o) as [->|Hn].
      - rewrite Hmo. split; [intros [g [b [Hb _]]]; discriminate|tauto].
      - rewrite Hm by auto. tauto. }
    split; [|split; [split; [apply le_n|split]|auto]].
    + constructor; auto.
      * intros l l' x. rewrite !Hl. intros [A _] [C _]. eapply l_uniq; eauto.
      * intros l. unfold h'. cbn. unfold updl. destruct (lid_eq_dec l GFree); auto. apply (l_nodup _ _ I).
      * intros l x. rewrite Hl. intros [A _]. exact (l_above _ _ I _ _ A).
      * intros l x. rewrite Hl, Hg. intros [A A']. split; auto. eapply l_gcobj; eauto.
      * intros x. rewrite Hg. intros [A A']. destruct (l_listed _ _ I _ A) as [[]|[l Hll]].
        right. exists l. rewrite Hl. auto.
      * intros x b Hb. destruct (Nat.eq_dec x o) as [->|Hn]; [congruence|].
        rewrite Hm in Hb by auto. exact (l_fresh _ _ I _ _ Hb).
      * intros x d [b [p [Hb Hp]]]. destruct (Nat.eq_dec x o) as [->|Hn]; [congruence|].
        rewrite Hm in Hb by auto. apply (l_stack _ _ I x). exists b, p; auto.
      * constructor; [|apply (l_fnd _ _ I)]. intros Hx. destruct (l_freed _ _ I _ Hx). congruence.
      * intros x [<-|Hx]; [split; [auto|exact (l_fresh _ _ I _ _ Hob)]|].
        destruct (l_freed _ _ I _ Hx) as [A1 A2]. split; [|auto].
        destruct (Nat.eq_dec x o) as [->|]; auto. rewrite Hm; auto.
      * apply (l_gf _ _ I).
      * apply (l_next _ _ I).
      * intros x Hx. destruct (l_save _ _ I _ Hx) as [[]|[l [Hll [Hl1 Hl2]]]]. right. exists l.
        rewrite Hl. split; [split|]; auto. intros ->. apply Hl1. eapply l_uniq; eauto.
      * apply (l_int _ _ I).
    + intros x Hx. destruct (Nat.eq_dec x o) as [->|Hn]; [right; left; reflexivity|].
      left. rewrite Hg. auto.
    + intros x Hx. right. exact Hx.
Qed.

Lemma li_mark_ref E h v h' : LI E h -> mark_ref h v = Some h' ->
  (forall x, In x E -> forall g, genx (mem h) x g -> g = g_gen (gc h)) ->
  LI E h' /\ mem h' = mem h /\ fresh h' = fresh h /\ freed h' = freed h /\ top h' = top h /\
  gc h' = gc h /\ frames h' = frames h.
Proof.
  intros I H HE. destruct v as [| |x|]; cbn in H; try discriminate; try (injection H as <-; auto).
  2: intuition.
  1: intuition.
  destruct (mem h x) as [ob|] eqn:Em; [|discriminate].
  destruct (oloc ob) as [|g] eqn:El; [discriminate|].
  destruct ((g_min (gc h) <=? g) && negb (g =? g_gen (gc h))) eqn:Eb; injection H as <-; [|intuition].
  assert (Hg : genx (mem h) x g) by (exists ob; auto).
  split; [|cbn; intuition].
  assert (Hn : ~ In x E).
  { intros Hx. pose proof (HE _ Hx _ Hg) as ->. rewrite Nat.eqb_refl, andb_false_r in Eb. discriminate. }
  rewrite <- (rem_notin x E Hn). apply li_move_to; try discriminate; [exact I|exists g; auto|exact Logic.I].
Qed.

Lemma li_mark_refs E vs : forall h h', LI E h -> mark_refs h vs = Some h' ->
  (forall x, In x E -> forall g, genx (mem h) x g -> g = g_gen (gc h)) ->
  LI E h' /\ mem h' = mem h /\ fresh h' = fresh h /\ freed h' = freed h /\ top h' = top h /\
  gc h' = gc h /\ frames h' = frames h.
Proof.
  induction vs as [|v vs IH]; intros h h' I H HE; cbn in H; [injection H as <-; intuition|].
  destruct (mark_ref h v) as [h1|] eqn:E1; [|discriminate].
  destruct (li_mark_ref E h v h1 I E1 HE) as [I1 [A1 [A2 [A3 [A4 [A5 A6]]]]]].
  destruct (IH h1 h' I1 H) as [I2 [C1 [C2 [C3 [C4 [C5 C6]]]]]]; [rewrite A1, A5; exact HE|].
  split; [exact I2|]. repeat split; congruence.
Qed.

Definition keeps (h h' : heap) : Prop := LI [] h' /\ acct h h' /\ top h' = top h.

Lemma li_incr_gc h h' : LI [] h -> incr_gc h = Some h' -> keeps h h'.
Proof.
  intros I0 H. unfold incr_gc in H.
  destruct (li_free_one h I0) as [I1 [A1 [T1 [F1 G1]]]].
  destruct (li_free_one (free_one h) I1) as [I2 [A2 [T2 [F2 G2]]]].
  set (h2 := free_one (free_one h)) in *.
  assert (A : acct h h2) by (eapply acct_trans; eauto).
  assert (T : top h2 = top h) by congruence. clearbody h2. clear I1 A1 T1 F1 G1 A2 T2 F2 G2 I0.
  unfold keeps. rewrite <- T.
  assert (K : LI [] h' /\ acct h2 h' /\ top h' = top h2 -> LI [] h' /\ acct h h' /\ top h' = top h2).
  { intros [B1 [B2 B3]]. split; [exact B1|]. split; [eapply acct_trans; eauto|exact B3]. }
  apply K. clear K A T h. rename h2 into h. rename I2 into I.
  unfold get in H. destruct (lists h GMrk) as [|o r] eqn:Eg.
  - set (h3 := move_list_to (move_all h GFree GUnm) (Mrk (g_frame (gc h))) (g_save (gc h))) in *.
    assert (I1 : LI [] (move_all h GFree GUnm)).
    { apply li_move_all; auto; [discriminate|exact Logic.I]. }
    assert (I3 : LI [] h3).
    { apply li_move_list_to; auto; try discriminate.
      - intros x Hx. destruct (l_save _ _ I _ Hx) as [[]|[l [Hl _]]]. exact (l_gcobj _ _ I _ _ Hl).
      - exact (l_gf _ _ I). }
    destruct (mlt_same (Mrk (g_frame (gc h))) (g_save (gc h)) (move_all h GFree GUnm)) as [M1 [M2 [M3 [M4 [M5 M6]]]]].
    fold h3 in M1, M2, M3, M4, M5, M6. cbn [mem fresh freed top gc frames move_all set_lists] in *.
    clearbody h3.
    destruct (g_next (gc h)) as [n|] eqn:En.
    + injection H as <-. rewrite <- M5 in En. pose proof (l_next _ _ I3 n En) as Hn.
      split; [|split; [apply acct_same; auto|exact M4]].
      set (h4 := set_gc h3 _).
      assert (I4 : LI [] h4).
      { apply li_set_gc; cbn; auto; try (intros x []; fail).
        intros m. destruct (Nat.eq_dec n (top h3)); [discriminate|]. intros [= <-]. lia. }
      apply li_move_all; auto; [|discriminate|exact Logic.I].
      apply li_move_all; auto; [discriminate|exact Logic.I].
    + injection H as <-. split; [exact I3|]. split; [apply acct_same; auto|exact M4].
  - set (h1 := set_lists h _) in *. cbn [mem set_lists h1] in H.
    destruct (mem h o) as [ob|] eqn:Em; [|discriminate].
    destruct (oloc ob) as [|g0] eqn:El; [discriminate|].
    set (ob' := mk_obj (okind ob) (ofields ob) (LGc (g_gen (gc h)))) in *.
    set (h2 := set_mem h1 _) in *.
    assert (Ho : inl h GMrk o) by (unfold inl; rewrite Eg; cbn; auto).
    pose proof (l_nodup _ _ I GMrk) as Nd. rewrite Eg in Nd. inversion Nd; subst.
    assert (Hl : forall l x, inl h2 l x <-> inl h l x /\ x <> o).
    { intros l x. unfold inl, h2, h1. cbn. unfold updl. destruct (lid_eq_dec l GMrk) as [->|Hn].
      - rewrite Eg. cbn. split; [intros Hx; split; [auto|intros ->; auto]|intros [[<-|Hx] Hn]; [congruence|auto]].
      - split; [|tauto]. intros Hx. split; auto. intros ->. apply Hn. eapply l_uniq; eauto. }
    assert (Hm : forall x, x <> o -> mem h2 x = mem h x).
    { intros x Hx. unfold h2. cbn. unfold upd. destruct (Nat.eq_dec x o); congruence. }
    assert (Hmo : mem h2 o = Some ob').
    { unfold h2. cbn. unfold upd. destruct (Nat.eq_dec o o); congruence. }
    assert (Hg : forall x, gcobj (mem h2) x <-> gcobj (mem h) x).
    { intros x. unfold gcobj, genx. destruct (Nat.eq_dec x o) as [->|Hn].
      - rewrite Hmo, Em. split; intros _; [exists g0, ob|exists (g_gen (gc h)), ob']; auto.
      - rewrite Hm by auto. tauto. }
    assert (I2 : LI [o] h2).
    { constructor; auto.
      * intros l l' x. rewrite !Hl. intros [A _] [C _]. eapply l_uniq; eauto.
      * intros l. unfold h2, h1. cbn. unfold updl. destruct (lid_eq_dec l GMrk); auto. apply (l_nodup _ _ I).
      * intros l x. rewrite Hl. intros [A _]. exact (l_above _ _ I _ _ A).
      * intros l x. rewrite Hl, Hg. intros [A A']. eapply l_gcobj; eauto.
      * intros x. rewrite Hg. intros A. destruct (Nat.eq_dec x o) as [->|Hn]; [cbn; auto|].
        destruct (l_listed _ _ I _ A) as [[]|[l Hll]].
        right. exists l. rewrite Hl. auto.
      * intros x l [<-|[]]. rewrite Hl. tauto.
      * intros x b Hb. destruct (Nat.eq_dec x o) as [->|Hn]; [exact (l_fresh _ _ I _ _ Em)|].
        rewrite Hm in Hb by auto. exact (l_fresh _ _ I _ _ Hb).
      * intros x d [b [p [Hb Hp]]]. destruct (Nat.eq_dec x o) as [->|Hn].
        { rewrite Hmo in Hb. injection Hb as <-. discriminate. }
        rewrite Hm in Hb by auto. apply (l_stack _ _ I x). exists b, p; auto.
      * apply (l_fnd _ _ I).
      * intros x Hx. destruct (l_freed _ _ I x Hx) as [B1 B2]. split; [|exact B2].
        destruct (Nat.eq_dec x o) as [->|Hn]; [congruence|]. rewrite Hm; auto.
      * apply (l_gf _ _ I).
      * apply (l_next _ _ I).
      * intros x Hx. destruct (Nat.eq_dec x o) as [->|Hn]; [cbn; auto|].
        destruct (l_save _ _ I _ Hx) as [[]|[l [Hll Hl12]]]. right. exists l. rewrite Hl. auto.
      * apply (l_int _ _ I). }
    destruct (mark_refs h2 (ofields ob)) as [h3|] eqn:E3; [|discriminate]. injection H as <-.
    destruct (li_mark_refs [o] _ h2 h3 I2 E3) as [I3 [C1 [C2 [C3 [C4 [C5 C6]]]]]].
    { intros x [<-|[]] g [b [Hb Hbl]]. rewrite Hmo in Hb. injection Hb as <-. injection Hbl as <-. reflexivity. }
    assert (Hgo : gcobj (mem h3) o).
    { rewrite C1. apply Hg. exists g0, ob; auto. }
    split; [|split].
    + replace (@nil nat) with (rem o [o]) by (cbn; destruct (Nat.eq_dec o o); congruence).
      assert (gfo : g_frame (gc h) <= top h3) by (rewrite C4; exact (l_gf _ _ I)).
      apply li_move_to; auto; destruct (g_int (gc h)); try discriminate; exact gfo.
    + cbn. unfold acct. cbn. rewrite C1, C2, C3. split; [apply le_n|]. split; [|auto].
      intros x Hx. left. apply Hg. exact Hx.
    + cbn. rewrite C4. reflexivity.
Qed.

(** ** Allocation *)

Lemma li_new_gc h d k vs h' o : LI [] h -> d <= top h -> new_gc h d k vs = Some (h', o) ->
  keeps h h' /\ o = pred (fresh h') /\ fresh h <= o /\
  mem h' o = Some (mk_obj k vs (LGc (gen (frames h' d)))) /\ o < fresh h'.
Proof.
  intros I Hd H. unfold new_gc in H. destruct (incr_gc h) as [h1|] eqn:E; [|discriminate].
  injection H as <- <-. destruct (li_incr_gc h h1 I E) as [I1 [A1 T1]].
  set (o := fresh h1). set (ob := mk_obj k vs (LGc (gen (frames h1 d)))).
  set (h' := set_lists _ _). set (ob2 := mk_obj k vs _).
  assert (Hno : mem h1 o = None).
  { destruct (mem h1 o) eqn:E1; auto. pose proof (l_fresh _ _ I1 _ _ E1). unfold o in *. lia. }
  assert (Hnl : forall l, ~ inl h1 l o).
  { intros l Hl. destruct (l_gcobj _ _ I1 _ _ Hl) as [g [b [Hb _]]]. congruence. }
  assert (Hl : forall l x, inl h' l x <-> inl h1 l x \/ (l = All d /\ x = o)).
  { intros l x. unfold inl, h'. cbn. unfold updl. destruct (lid_eq_dec l (All d)) as [->|Hn].
    - cbn. intuition congruence.
    - intuition congruence. }
  assert (Hm : forall x, x <> o -> mem h' x = mem h1 x).
  { intros x Hx. unfold h'. cbn. unfold upd. destruct (Nat.eq_dec _ _); [congruence|auto]. }
  assert (Hmo : mem h' o = Some ob).
  { unfold h'. cbn. unfold upd. destruct (Nat.eq_dec _ _); [reflexivity|congruence]. }
  assert (Hg : forall x, gcobj (mem h') x <-> gcobj (mem h1) x \/ x = o).
  { intros x. unfold gcobj, genx. destruct (Nat.eq_dec x o) as [->|Hn].
    - rewrite Hmo. split; auto. intros _. exists (gen (frames h1 d)), ob. auto.
    - rewrite Hm by auto. intuition. }
  assert (Hfr : fresh h' = S o) by reflexivity.
  split; [split; [|split]|split; [|split; [|split]]].
  - constructor; auto.
    * intros l l' x. rewrite !Hl. intros [A|[-> ->]] [C|[-> Eq]]; subst; auto.
      -- eapply l_uniq; eauto.
      -- destruct (Hnl _ A).
      -- destruct (Hnl _ C).
    * intros l. unfold h'. cbn. unfold updl. destruct (lid_eq_dec l (All d)); [|apply (l_nodup _ _ I1)].
      constructor; [apply Hnl|apply (l_nodup _ _ I1)].
    * intros l x. rewrite Hl. intros [A|[-> ->]]; [exact (l_above _ _ I1 _ _ A)|]. cbn. lia.
    * intros l x. rewrite Hl, Hg. intros [A|[-> ->]]; auto. left. eapply l_gcobj; eauto.
    * intros x. rewrite Hg. intros [A| ->].
      -- destruct (l_listed _ _ I1 _ A) as [[]|[l Hll]]. right. exists l. rewrite Hl. auto.
      -- right. exists (All d). rewrite Hl. auto.
    * intros x b Hb. rewrite Hfr. destruct (Nat.eq_dec x o) as [->|Hn]; [lia|].
      rewrite Hm in Hb by auto. pose proof (l_fresh _ _ I1 _ _ Hb). unfold o. lia.
    * intros x e [b [p [Hb Hp]]]. destruct (Nat.eq_dec x o) as [->|Hn].
      { rewrite Hmo in Hb. injection Hb as <-. discriminate. }
      rewrite Hm in Hb by auto. apply (l_stack _ _ I1 x). exists b, p; auto.
    * apply (l_fnd _ _ I1).
    * intros x Hx. destruct (l_freed _ _ I1 x Hx) as [B1 B2]. rewrite Hfr. unfold o. split; [|lia].
      rewrite Hm; auto. unfold o. lia.
    * apply (l_gf _ _ I1).
    * apply (l_next _ _ I1).
    * intros x Hx. destruct (l_save _ _ I1 _ Hx) as [[]|[l [Hll Hl12]]]. right. exists l. rewrite Hl. auto.
    * apply (l_int _ _ I1).
  - eapply acct_trans; [exact A1|]. split; [rewrite Hfr; unfold o; lia|]. split; [|auto].
    intros x Hx. left. rewrite Hg. auto.
  - cbn. exact T1.
  - rewrite Hfr. reflexivity.
  - unfold o. destruct A1. lia.
  - exact Hmo.
  - rewrite Hfr. lia.
Qed.

(** Writing to an object without changing where it is. *)
Lemma li_write h o ob ob' : LI [] h -> mem h o = Some ob ->
  (forall g, oloc ob = LGc g <-> oloc ob' = LGc g) ->
  (forall p d, oloc ob = LStack p d -> exists p', oloc ob' = LStack p' d) ->
  keeps h (set_mem h (upd (mem h) o (Some ob'))).
Proof.
  intros I Hm Hg Hs. set (h' := set_mem _ _).
  assert (Hmx : forall x, x <> o -> mem h' x = mem h x).
  { intros x Hx. unfold h'. cbn. unfold upd. destruct (Nat.eq_dec x o); congruence. }
  assert (Hmo : mem h' o = Some ob').
  { unfold h'. cbn. unfold upd. destruct (Nat.eq_dec o o); congruence. }
  assert (Hgx : forall x, gcobj (mem h') x <-> gcobj (mem h) x).
  { intros x. unfold gcobj, genx. destruct (Nat.eq_dec x o) as [->|Hn].
    - rewrite Hmo, Hm. split; intros [g [b [[= <-] Hb]]]; exists g; [exists ob|exists ob']; split; auto; apply Hg; auto.
    - rewrite Hmx by auto. tauto. }
  split; [|split; [split; [apply le_n|]|reflexivity]].
  - destruct I. constructor; auto.
    + intros l x Hl. apply Hgx. exact (l_gcobj0 l x Hl).
    + intros x Hx. apply Hgx in Hx. exact (l_listed0 x Hx).
    + intros x b Hb. destruct (Nat.eq_dec x o) as [->|Hn]; [eapply l_fresh0; eauto|].
      rewrite Hmx in Hb by auto. eapply l_fresh0; eauto.
    + intros x d [b [p [Hb Hp]]]. destruct (Nat.eq_dec x o) as [->|Hn].
      * rewrite Hmo in Hb. injection Hb as <-. apply (l_stack0 o).
        destruct (oloc ob) as [p0 d0|g] eqn:El.
        -- destruct (Hs _ _ eq_refl) as [p' Hp']. rewrite Hp' in Hp. injection Hp as -> ->.
           exists ob, p0. auto.
        -- assert (oloc ob' = LGc g) by (apply Hg; auto). congruence.
      * rewrite Hmx in Hb by auto. apply (l_stack0 x). exists b, p; auto.
    + intros x Hx. destruct (l_freed0 x Hx) as [B1 B2]. split; [|exact B2].
      destruct (Nat.eq_dec x o) as [->|Hn]; [congruence|]. rewrite Hmx; auto.
  - split; [|auto]. intros x Hx. left. apply Hgx. exact Hx.
Qed.

Lemma keeps_refl h : LI [] h -> keeps h h.
Proof. intros I. split; [exact I|]. split; [apply acct_refl|reflexivity]. Qed.
Lemma keeps_trans a b c : keeps a b -> keeps b c -> keeps a c.
Proof.
  intros [A1 [A2 A3]] [B1 [B2 B3]]. split; [exact B1|]. split; [eapply acct_trans; eauto|congruence].
Qed.

Lemma li_set_field h o i v : LI [] h -> keeps h (set_field h o i v).
Proof.
  intros I. unfold set_field. destruct (mem h o) as [ob|] eqn:E; [|apply keeps_refl; auto].
  eapply li_write; [exact I|exact E|cbn; tauto|cbn; eauto].
Qed.

Lemma li_set_stack_gc h o g : LI [] h -> keeps h (set_stack_gc h o g).
Proof.
  intros I. unfold set_stack_gc. destruct (mem h o) as [ob|] eqn:E; [|apply keeps_refl; auto].
  destruct (oloc ob) as [p d|g'] eqn:El; [|apply keeps_refl; auto].
  eapply li_write; [exact I|exact E|..]; cbn; rewrite El.
  - intros g'; split; discriminate.
  - intros p' d' [= <- <-]. eauto.
Qed.

Lemma li_new_stack h k vs : LI [] h -> keeps h (fst (new_stack h k vs)).
Proof.
  intros I. unfold new_stack. cbn [fst]. set (o := fresh h). set (h' := set_mem _ _).
  set (ob := mk_obj k vs (LStack None (top h))) in *.
  assert (Hno : mem h o = None).
  { destruct (mem h o) eqn:E1; auto. pose proof (l_fresh _ _ I _ _ E1). unfold o in *. lia. }
  assert (Hm : forall x, x <> o -> mem h' x = mem h x).
  { intros x Hx. unfold h'. cbn. unfold upd. destruct (Nat.eq_dec x o); congruence. }
  assert (Hmo : mem h' o = Some ob).
  { unfold h'. cbn. unfold upd. destruct (Nat.eq_dec o o); congruence. }
  assert (Hgx : forall x, gcobj (mem h') x <-> gcobj (mem h) x).
  { intros x. unfold gcobj, genx. destruct (Nat.eq_dec x o) as [->|Hn].
    - rewrite Hmo, Hno. split; intros [g [b [[= <-] Hb]]]; discriminate.
    - rewrite Hm by auto. tauto. }
  split; [|split; [split; [unfold h', o; cbn; lia|]|reflexivity]].
  - destruct I. constructor; auto.
    + intros l x Hl. apply Hgx. exact (l_gcobj0 l x Hl).
    + intros x Hx. apply Hgx in Hx. exact (l_listed0 x Hx).
    + intros x b Hb. cbn. destruct (Nat.eq_dec x o) as [->|Hn]; [lia|].
      rewrite Hm in Hb by auto. pose proof (l_fresh0 _ _ Hb). lia.
    + intros x d [b [p [Hb Hp]]]. destruct (Nat.eq_dec x o) as [->|Hn].
      * rewrite Hmo in Hb. injection Hb as <-. injection Hp as <- <-. cbn. lia.
      * rewrite Hm in Hb by auto. apply (l_stack0 x). exists b, p; auto.
    + intros x Hx. destruct (l_freed0 x Hx) as [B1 B2]. split; [|cbn; unfold o; lia].
      rewrite Hm; auto. unfold o. lia.
  - split; [|auto]. intros x Hx. left. apply Hgx. exact Hx.
Qed.

Lemma li_gc_realloc fuel : forall h v h' v', LI [] h -> gc_realloc fuel h v = Some (h', v') -> keeps h h'.
Proof.
  induction fuel as [|fuel IH]; intros h v h' v' I H.
  - cbn in H. destruct v as [| |o|]; try discriminate; try (injection H as <- <-; apply keeps_refl; auto).
    destruct (mem h o) as [ob|]; [|discriminate].
    destruct (oloc ob) as [[g|] d|g]; try discriminate; injection H as <- <-; apply keeps_refl; auto.
  - cbn [gc_realloc] in H. destruct v as [| |o|]; try discriminate; try (injection H as <- <-; apply keeps_refl; auto).
    destruct (mem h o) as [ob|] eqn:Em; [|discriminate].
    destruct (oloc ob) as [[g|] d|g] eqn:El; try (injection H as <- <-; apply keeps_refl; auto; fail).
    assert (Hd : d <= top h) by (apply (l_stack _ _ I o); exists ob, None; auto).
    assert (K : forall g h1 vs i, LI [] h1 ->
      (fix fields (h : heap) (i : nat) (vs : list value) {struct vs} : option (heap * value) :=
                 match vs with
                 | [] => Some (h, VObj g)
                 | x :: vs' =>
                   match gc_realloc fuel h x with
                   | None => None
                   | Some (h', x') => fields (set_field h' g i x') (S i) vs'
                   end
                 end) h1 i vs = Some (h', v') -> keeps h1 h').
    { clear H. intros g h1 vs. revert h1. induction vs as [|x vs IHv]; intros h1 i I1 H; [injection H as <- <-; apply keeps_refl; auto|].
      destruct (gc_realloc fuel h1 x) as [[h2 x']|] eqn:E2; [|discriminate].
      pose proof (IH _ _ _ _ I1 E2) as K2. destruct K2 as [I2 K2].
      pose proof (li_set_field h2 g i x' I2) as K3.
      eapply keeps_trans; [split; [exact I2|exact K2]|].
      eapply keeps_trans; [exact K3|]. eapply IHv; [apply K3|exact H]. }
    destruct (okind ob); try discriminate;
      (match type of H with context[new_gc h d ?k ?vs] => destruct (new_gc h d k vs) as [[h1 g]|] eqn:E1; [|discriminate] end;
       destruct (li_new_gc _ _ _ _ _ _ I Hd E1) as [K1 _];
       eapply keeps_trans; [exact K1|];
       pose proof (li_set_stack_gc h1 o g (proj1 K1)) as K2;
       eapply keeps_trans; [exact K2|]; eapply K; [apply K2|exact H]).
Qed.

Lemma li_realloc_list vs : forall h h' vs', LI [] h -> realloc_list h vs = Some (h', vs') -> keeps h h'.
Proof.
  induction vs as [|v vs IH]; intros h h' vs' I H; cbn in H; [injection H as <- <-; apply keeps_refl; auto|].
  destruct (realloc h v) as [[h1 v1]|] eqn:E1; [|discriminate].
  destruct (realloc_list h1 vs) as [[h2 vs2]|] eqn:E2; [|discriminate]. injection H as <- <-.
  pose proof (li_gc_realloc _ _ _ _ _ I E1) as K1. eapply keeps_trans; [exact K1|].
  eapply IH; [apply K1|exact E2].
Qed.

(** ** Frames *)

Lemma gcobj_kill m d x : gcobj (kill_stack m d) x <-> gcobj m x.
Proof.
  unfold gcobj, genx, kill_stack. destruct (m x) as [b|]; [|tauto].
  destruct (oloc b) as [p e|g] eqn:El; [|tauto].
  destruct (Nat.eq_dec e d); [|tauto].
  split; intros [g [b' [Hb Hg]]]; congruence.
Qed.
Lemma mem_kill m d x b : kill_stack m d x = Some b -> m x = Some b.
Proof.
  unfold kill_stack. destruct (m x) as [b'|]; [|auto].
  destruct (oloc b') as [p e|g] eqn:El; [|auto]. destruct (Nat.eq_dec e d); [discriminate|auto].
Qed.
Lemma stack_kill m d x e : stackobj (kill_stack m d) x e -> stackobj m x e /\ e <> d.
Proof.
  intros [b [p [Hb Hp]]]. split; [exists b, p; split; [eapply mem_kill; eauto|auto]|].
  intros ->. unfold kill_stack in Hb. destruct (m x) as [b'|] eqn:E; [|discriminate].
  destruct (oloc b') as [p' e'|g] eqn:El.
  - destruct (Nat.eq_dec e' d); [discriminate|]. injection Hb as ->. congruence.
  - injection Hb as ->. congruence.
Qed.

Lemma li_lists_ok h : LI [] h -> lists_ok h.
Proof. intros I. split; [apply (l_uniq _ _ I)|apply (l_nodup _ _ I)]. Qed.

(** [h'] is [h] with stack objects of a frame gone and the lists rearranged. *)
Lemma li_rearranged h h' d : LI [] h -> mem h' = kill_stack (mem h) d -> fresh h' = fresh h ->
  freed h' = freed h -> lists_ok h' ->
  (forall x, (exists l, inl h l x) <-> (exists l, inl h' l x)) ->
  (forall l x, inl h' l x -> lid_ok h' l) ->
  (top h' = top h \/ S (top h') = top h /\ d = top h) ->
  g_frame (gc h') <= top h' -> (forall n, g_next (gc h') = Some n -> n <= top h') ->
  (forall x, In x (g_save (gc h')) -> exists l, inl h' l x /\ l <> GFree /\ l <> GUnm) ->
  (g_int (gc h') = false -> g_save (gc h') = []) ->
  LI [] h' /\ acct h h'.
Proof.
  intros I Hm Hf Hfd [Un Nd] Hl Hab Ht Hgf Hn Hs Hi. split.
  - constructor; auto.
    + intros l x Hx. rewrite Hm, gcobj_kill. destruct (proj2 (Hl x)) as [l' Hl']; eauto.
      eapply l_gcobj; eauto.
    + intros x. rewrite Hm, gcobj_kill. intros Hx. right. apply Hl.
      destruct (l_listed _ _ I _ Hx) as [[]|H]; auto.
    + intros x b. rewrite Hm, Hf. intros Hb. apply mem_kill in Hb. eapply l_fresh; eauto.
    + intros x e. rewrite Hm. intros Hx. apply stack_kill in Hx. destruct Hx as [Hx Hne].
      pose proof (l_stack _ _ I _ _ Hx). lia.
    + rewrite Hfd. apply (l_fnd _ _ I).
    + intros x. rewrite Hfd, Hm, Hf. intros Hx. destruct (l_freed _ _ I _ Hx) as [B1 B2].
      split; auto. unfold kill_stack. rewrite B1. reflexivity.
  - unfold acct. rewrite Hm, Hf, Hfd. split; [auto|]. split; [|auto].
    intros x Hx. left. apply gcobj_kill. exact Hx.
Qed.

Lemma undergoing_gcobj h x : undergoing h (VObj x) = true -> gcobj (mem h) x.
Proof.
  unfold undergoing, gen_of. destruct (mem h x) as [b|] eqn:E; [|discriminate].
  destruct (oloc b) as [|g] eqn:El; [discriminate|]. intros _. exists g, b. auto.
Qed.
Lemma owned_gcobj h x m : owned h (VObj x) m = true -> gcobj (mem h) x.
Proof.
  unfold owned, gen_of. destruct (mem h x) as [b|] eqn:E; [|discriminate].
  destruct (oloc b) as [|g] eqn:El; [discriminate|]. intros _. exists g, b. auto.
Qed.

Lemma li_pop_tail fix_ h v c : LI [] h -> top h = S c ->
  LI [] (pop_tail fix_ h v (top h) c) /\ acct h (pop_tail fix_ h v (top h) c).
Proof.
  intros I Ht.
  destruct (pop_tail_shape fix_ h v (top h) c (eq_sym Ht) (li_lists_ok _ I)) as [T [M [F [Fd [Ok [_ [G L]]]]]]].
  set (h' := pop_tail fix_ h v (top h) c) in *. clearbody h'.
  set (d := top h) in *. assert (Hcd : c <> d) by (unfold d; lia).
  apply (li_rearranged h h' d); auto.
  - intros x. split; intros [l Hl].
    + destruct (Bool.bool_dec ((if Nat.eq_dec (g_frame (gc h)) d then true else false) && undergoing h v) true) as [E1|E1].
      * destruct (value_eq_dec v (VObj x)) as [E2|E2]; [exists GMrk; apply L; auto|].
        destruct (lid_eq_dec l (Unm c)) as [->|N1]; [exists (Unm c); apply L; tauto|].
        destruct (lid_eq_dec l (Unm d)) as [->|N2]; [exists (Unm c); apply L; tauto|].
        destruct (lid_eq_dec l (Mrk d)) as [->|N3]; [exists (Unm c); apply L; tauto|].
        destruct (lid_eq_dec l (All d)) as [->|N4]; [exists (Unm c); apply L; tauto|].
        exists l; apply L; tauto.
      * destruct (Bool.bool_dec (own_of h v d) true) as [E3|E3].
        -- destruct (value_eq_dec v (VObj x)) as [E2|E2]; [exists (Mrk c); apply L; tauto|].
           destruct (lid_eq_dec l (Unm c)) as [->|N1]; [exists (Unm c); apply L; tauto|].
           destruct (lid_eq_dec l (Unm d)) as [->|N2]; [exists (Unm c); apply L; tauto|].
           destruct (lid_eq_dec l (Mrk d)) as [->|N3]; [exists (Unm c); apply L; tauto|].
           destruct (lid_eq_dec l (All d)) as [->|N4]; [exists (Unm c); apply L; tauto|].
           exists l; apply L; tauto.
        -- destruct (lid_eq_dec l (Unm c)) as [->|N1]; [exists (Unm c); apply L; tauto|].
           destruct (lid_eq_dec l (Unm d)) as [->|N2]; [exists (Unm c); apply L; tauto|].
           destruct (lid_eq_dec l (Mrk d)) as [->|N3]; [exists (Unm c); apply L; tauto|].
           destruct (lid_eq_dec l (All d)) as [->|N4]; [exists (Unm c); apply L; tauto|].
           exists l; apply L; tauto.
    + apply L in Hl. destruct Hl as [[H1 [-> H2]]|[_ [[H1 [-> H2]]|[_ [[_ H1]|[_ [_ [_ [_ H1]]]]]]]]].
      * apply andb_true_iff in H1. destruct H1 as [_ H1]. apply undergoing_gcobj in H1.
        destruct (l_listed _ _ I _ H1) as [[]|Hx]; auto.
      * apply owned_gcobj in H1. destruct (l_listed _ _ I _ H1) as [[]|Hx]; auto.
      * destruct H1 as [H1|[H1|[H1|H1]]]; eauto.
      * eauto.
  - intros l x Hl. apply L in Hl.
    destruct Hl as [[H1 [-> ->]]|[_ [[H1 [-> ->]]|[_ [[-> H1]|[N1 [N2 [N3 [N4 H1]]]]]]]]]; cbn; try lia; auto.
    pose proof (l_above _ _ I _ _ H1) as Ha. destruct l as [e|e|e| | |]; cbn in *; auto.
    + destruct (Nat.eq_dec e d) as [->|]; [congruence|]. unfold d in *; lia.
    + destruct (Nat.eq_dec e d) as [->|]; [congruence|]. unfold d in *; lia.
    + destruct (Nat.eq_dec e d) as [->|]; [congruence|]. unfold d in *; lia.
  - right. rewrite T. auto.
  - rewrite G, T. cbn. pose proof (l_gf _ _ I). destruct (Nat.eq_dec (g_frame (gc h)) d); unfold d in *; lia.
  - rewrite G, T. cbn. intros n. destruct (g_next (gc h)) as [m|] eqn:En.
    + pose proof (l_next _ _ I _ En). destruct (Nat.eq_dec m d); intros [= <-]; unfold d in *; lia.
    + intros [= <-]. lia.
  - rewrite G. cbn. intros x Hx. destruct (Nat.eq_dec (g_frame (gc h)) d) as [Eg|Eg].
    + destruct (undergoing h v) eqn:Eu; [|destruct Hx]. exists GMrk. split; [|split; discriminate].
      apply L. left. destruct v; cbn in Hx; try tauto. destruct Hx as [->|[]]. cbn. auto.
    + destruct (l_save _ _ I x Hx) as [[]|[l [Hl [N1 N2]]]].
      destruct (Bool.bool_dec (own_of h v d) true) as [E3|E3].
      * destruct (value_eq_dec v (VObj x)) as [E2|E2].
        -- exists (Mrk c). split; [|split; discriminate]. apply L. right. split; [cbn; intros [? ?]; discriminate|]. auto.
        -- destruct (lid_eq_dec l (Unm c)) as [->|D1]; [|destruct (lid_eq_dec l (Unm d)) as [->|D2];
             [|destruct (lid_eq_dec l (Mrk d)) as [->|D3]; [|destruct (lid_eq_dec l (All d)) as [->|D4]]]];
           try (exists (Unm c); split; [apply L; tauto|split; discriminate]).
           exists l. split; [apply L; tauto|auto].
      * destruct (lid_eq_dec l (Unm c)) as [->|D1]; [|destruct (lid_eq_dec l (Unm d)) as [->|D2];
             [|destruct (lid_eq_dec l (Mrk d)) as [->|D3]; [|destruct (lid_eq_dec l (All d)) as [->|D4]]]];
           try (exists (Unm c); split; [apply L; cbn; intuition congruence|split; discriminate]).
           exists l. split; [apply L; cbn; intuition congruence|auto].
  - rewrite G. cbn. destruct (Nat.eq_dec (g_frame (gc h)) d); [discriminate|apply (l_int _ _ I)].
Qed.

Lemma li_compact_tail h vs c : LI [] h -> top h = S c ->
  LI [] (compact_tail h vs (top h)) /\ acct h (compact_tail h vs (top h)).
Proof.
  intros I Ht.
  destruct (compact_tail_shape h vs (top h) (li_lists_ok _ I)) as
    [T [M [F [Fd [Ok [_ [_ [Gf [Gn [Gi [Gs1 [Gs2 L]]]]]]]]]]]].
  set (h' := compact_tail h vs (top h)) in *. clearbody h'.
  set (d := top h) in *.
  assert (Dk : forall x, {In (VObj x) vs /\ own_of h (VObj x) d = true} + {~ (In (VObj x) vs /\ own_of h (VObj x) d = true)}).
  { intros x. destruct (in_dec value_eq_dec (VObj x) vs); [|right; tauto].
    destruct (own_of h (VObj x) d); [left; auto|right; intros [_ H]; discriminate]. }
  assert (Ds : forall x, {g_frame (gc h) = d /\ In (VObj x) vs /\ undergoing h (VObj x) = true} +
     {~ (g_frame (gc h) = d /\ In (VObj x) vs /\ undergoing h (VObj x) = true)}).
  { intros x. destruct (Nat.eq_dec (g_frame (gc h)) d); [|right; tauto].
    destruct (in_dec value_eq_dec (VObj x) vs); [|right; tauto].
    destruct (undergoing h (VObj x)); [left; auto|right; intros [_ [_ H]]; discriminate]. }
  apply (li_rearranged h h' d); auto.
  - intros x. split; intros [l Hl].
    + destruct (Ds x) as [E1|E1]; [exists GMrk; apply L; auto|].
      destruct (Dk x) as [E2|E2]; [exists (Mrk d); apply L; auto|].
      destruct (lid_eq_dec l (Unm d)) as [->|N2]; [exists (Unm d); apply L; tauto|].
      destruct (lid_eq_dec l (Mrk d)) as [->|N3]; [exists (Unm d); apply L; tauto|].
      destruct (lid_eq_dec l (All d)) as [->|N4]; [exists (Unm d); apply L; tauto|].
      exists l; apply L; tauto.
    + apply L in Hl. destruct Hl as [[[_ [_ H1]] _]|[_ [[[_ H1] _]|[_ [[_ H1]|[_ [_ [_ H1]]]]]]]].
      * apply undergoing_gcobj in H1. destruct (l_listed _ _ I _ H1) as [[]|Hx]; auto.
      * apply owned_gcobj in H1. destruct (l_listed _ _ I _ H1) as [[]|Hx]; auto.
      * destruct H1 as [H1|[H1|H1]]; eauto.
      * eauto.
  - intros l x Hl. apply L in Hl.
    destruct Hl as [[H1 ->]|[_ [[H1 ->]|[_ [[-> H1]|[N1 [N2 [N3 H1]]]]]]]]; cbn; rewrite ?T; auto.
    pose proof (l_above _ _ I _ _ H1) as Ha. destruct l; cbn in *; rewrite ?T; auto.
  - rewrite Gf, T. apply (l_gf _ _ I).
  - rewrite Gn, T. intros n. destruct (g_next (gc h)) as [m|] eqn:En.
    + intros [= <-]. exact (l_next _ _ I _ En).
    + intros [= <-]. unfold d. lia.
  - intros x Hx. destruct (Nat.eq_dec (g_frame (gc h)) d) as [Eg|Eg].
    + apply (Gs1 Eg) in Hx. exists GMrk. split; [|split; discriminate]. apply L. auto.
    + rewrite (Gs2 Eg) in Hx. destruct (l_save _ _ I x Hx) as [[]|[l [Hl [N1 N2]]]].
      assert (E1 : ~ (g_frame (gc h) = d /\ In (VObj x) vs /\ undergoing h (VObj x) = true)) by tauto.
      destruct (Dk x) as [E2|E2]; [exists (Mrk d); split; [apply L; auto|split; discriminate]|].
      destruct (lid_eq_dec l (Unm d)) as [->|D2]; [exists (Unm d); split; [apply L; tauto|split; discriminate]|].
      destruct (lid_eq_dec l (Mrk d)) as [->|D3]; [exists (Unm d); split; [apply L; tauto|split; discriminate]|].
      destruct (lid_eq_dec l (All d)) as [->|D4]; [exists (Unm d); split; [apply L; tauto|split; discriminate]|].
      exists l; split; [apply L; tauto|auto].
  - rewrite Gi. destruct (Nat.eq_dec (g_frame (gc h)) d) as [Eg|Eg]; [discriminate|].
    rewrite (Gs2 Eg). apply (l_int _ _ I).
Qed.

Lemma li_push h m : LI [] h -> LI [] (push h m) /\ acct h (push h m).
Proof.
  intros I. split; [|apply acct_same; destruct m; reflexivity].
  unfold push. destruct m; [apply li_set_frames; auto|].
  set (h' := set_top _ _).
  assert (Hl : forall l x, inl h' l x <-> inl h l x).
  { intros l x. unfold inl, h'. cbn. unfold updl.
    destruct (lid_eq_dec l (All (S (top h)))) as [->|];
      [|destruct (lid_eq_dec l (Mrk (S (top h)))) as [->|];
        [|destruct (lid_eq_dec l (Unm (S (top h)))) as [->|]; [|tauto]]];
      (split; [intros []|]; intros Hx; pose proof (l_above _ _ I _ _ Hx) as Ha; cbn in Ha; lia). }
  assert (Hn : forall l, NoDup (lists h' l)).
  { intros l. unfold h'. cbn. unfold updl. pose proof (l_nodup _ _ I l).
    destruct (lid_eq_dec l (All (S (top h)))); [constructor|].
    destruct (lid_eq_dec l (Mrk (S (top h)))); [constructor|].
    destruct (lid_eq_dec l (Unm (S (top h)))); [constructor|auto]. }
  destruct I. constructor; auto.
  - intros l l' x. rewrite !Hl. eauto.
  - intros l x. rewrite Hl. intros Hx. pose proof (l_above0 _ _ Hx) as Ha. destruct l; cbn in *; auto.
  - intros l x. rewrite Hl. eauto.
  - intros x Hx. destruct (l_listed0 x Hx) as [[]|[l Hx']]. right. exists l. rewrite Hl. auto.
  - intros x d Hx. pose proof (l_stack0 _ _ Hx). cbn. lia.
  - cbn. lia.
  - intros n Hx. pose proof (l_next0 _ Hx). cbn. lia.
  - intros x Hx. destruct (l_save0 x Hx) as [[]|[l Hx']]. right. exists l. rewrite Hl. auto.
Qed.

Lemma li_new_heap : LI [] new_heap.
Proof.
  constructor; cbn; try (intros; discriminate); try (intros; contradiction); auto.
  - constructor.
  - intros x [g [b [Hb _]]]. discriminate.
  - intros x d [b [p [Hb _]]]. discriminate.
  - constructor.
Qed.

(** ** Histories *)

Lemma li_exec fix_ s o s' : LI [] (c_heap s) -> exec fix_ s o = Some s' ->
  LI [] (c_heap s') /\ acct (c_heap s) (c_heap s').
Proof.
  intros I H. destruct o as [k vs| |data|r v|o i|m vs|v|m vs]; cbn [exec] in H.
  - pose proof (li_new_stack _ k vs I) as K. destruct (new_stack (c_heap s) k vs) as [h' x].
    injection H as <-. destruct K as [K1 [K2 _]]. split; auto.
  - destruct (new_ref (c_heap s)) as [[h' r]|] eqn:E; [|discriminate]. injection H as <-.
    destruct (li_new_gc _ _ _ _ _ _ I (le_n _) E) as [[K1 [K2 _]] _]. split; auto.
  - destruct (new_native (c_heap s) data) as [[h' r]|] eqn:E; [|discriminate]. injection H as <-.
    destruct (li_new_gc _ _ _ _ _ _ I (le_n _) E) as [[K1 [K2 _]] _]. split; auto.
  - unfold assign_ref in H. destruct (realloc (c_heap s) v) as [[h1 v1]|] eqn:E; [|discriminate].
    injection H as <-. pose proof (li_gc_realloc _ _ _ _ _ I E) as K1.
    pose proof (keeps_trans _ _ _ K1 (li_set_field h1 r 0 v1 (proj1 K1))) as [K2 [K3 _]]. split; auto.
  - destruct (mem (c_heap s) o); [|discriminate].
    destruct (nth_error _ i) as [[| | |]|]; try discriminate; injection H as <-; (split; [exact I|apply acct_refl]).
  - pose proof (li_push _ m I) as K. destruct m; injection H as <-; exact K.
  - destruct (pop fix_ (c_heap s) v) as [[h' v']|] eqn:E; [|discriminate]. injection H as <-. cbn.
    destruct (merges (frames (c_heap s) (top (c_heap s)))) as [|n] eqn:Em.
    + destruct (top (c_heap s)) as [|c] eqn:Et; [unfold pop in E; rewrite Et, Em in E; discriminate|].
      rewrite (pop_eq _ _ _ c Et) in E by (rewrite Et; exact Em).
      destruct (realloc (c_heap s) v) as [[h1 v1]|] eqn:Er; [|discriminate]. injection E as <- <-.
      destruct (li_gc_realloc _ _ _ _ _ I Er) as [K1 [K2 K3]].
      rewrite <- K3. destruct (li_pop_tail fix_ h1 v1 c K1) as [K4 K5]; [congruence|].
      split; [exact K4|eapply acct_trans; eauto].
    + unfold pop in E. rewrite Em in E. injection E as <- <-.
      split; [apply li_set_frames; auto|apply acct_same; auto].
  - destruct (compact (c_heap s) m vs) as [[h' vs']|] eqn:E; [|discriminate].
    destruct m; injection H as <-; cbn.
    + injection E as <- <-. split; [exact I|apply acct_refl].
    + destruct (merges (frames (c_heap s) (top (c_heap s)))) as [|n] eqn:Em.
      * destruct (top (c_heap s)) as [|c] eqn:Et; [unfold compact in E; rewrite Et, Em in E; discriminate|].
        rewrite (compact_eq _ _ c Et) in E by (rewrite Et; exact Em).
        destruct (realloc_list (c_heap s) vs) as [[h1 v1]|] eqn:Er; [|discriminate]. injection E as <- <-.
        destruct (li_realloc_list _ _ _ _ I Er) as [K1 [K2 K3]].
        rewrite <- K3. destruct (li_compact_tail h1 v1 c K1) as [K4 K5]; [congruence|].
        split; [exact K4|eapply acct_trans; eauto].
      * unfold compact in E. rewrite Em in E. injection E as <- <-.
        pose (h0 := set_frames (c_heap s) (upd (frames (c_heap s)) (top (c_heap s))
          (mk_frame n (min_gen (frames (c_heap s) (top (c_heap s)))) (gen (frames (c_heap s) (top (c_heap s))))
             (max_gen (frames (c_heap s) (top (c_heap s))))))).
        assert (I0 : LI [] h0) by (apply li_set_frames; auto).
        destruct (li_push h0 false I0) as [K1 K2]. split; [exact K1|].
        eapply acct_trans; [|exact K2]. apply acct_same; reflexivity.
Qed.

Lemma frame_lists_in h x d : forall n, d <= n ->
  inl h (Unm d) x \/ inl h (Mrk d) x \/ inl h (All d) x -> In x (frame_lists h n).
Proof.
  unfold inl. induction n as [|n IH]; intros Hd H; cbn [frame_lists]; rewrite !in_app_iff.
  - replace 0 with d by lia. tauto.
  - destruct (Nat.eq_dec d (S n)) as [->|]; [tauto|]. right; right; right. apply IH; [lia|auto].
Qed.

Lemma frame_lists_out h x : forall n, In x (frame_lists h n) ->
  exists d, d <= n /\ (inl h (Unm d) x \/ inl h (Mrk d) x \/ inl h (All d) x).
Proof.
  unfold inl. induction n as [|n IH]; cbn [frame_lists]; rewrite !in_app_iff.
  - intros H. exists 0. split; auto. cbn in H. tauto.
  - intros [H|[H|[H|H]]]; try (exists (S n); split; [lia|tauto]).
    destruct (IH H) as [d [Hd H']]. exists d. split; [lia|auto].
Qed.

Lemma frame_lists_nodup h : LI [] h -> forall n, NoDup (frame_lists h n).
Proof.
  intros I. assert (U := l_uniq _ _ I). assert (N := l_nodup _ _ I). unfold inl in U.
  induction n as [|n IH]; cbn [frame_lists].
  - rewrite app_nil_r. repeat (apply nodup_app; auto).
    + intros x H1 H2. specialize (U _ _ _ H1 H2). discriminate.
    + intros x H1 H2. rewrite in_app_iff in H2. destruct H2 as [H2|H2]; specialize (U _ _ _ H1 H2); discriminate.
  - assert (F : forall l x, In x (lists h l) -> match l with Unm d | Mrk d | All d => d = S n | _ => False end ->
        In x (frame_lists h n) -> False).
    { intros l x H1 Hl H2. destruct (frame_lists_out _ _ _ H2) as [d [Hd H3]]. unfold inl in H3.
      destruct H3 as [H3|[H3|H3]]; specialize (U _ _ _ H1 H3); subst l; lia. }
    repeat (apply nodup_app; auto).
    + intros x H1 H2. apply (F (All (S n)) x); auto.
    + intros x H1 H2. rewrite in_app_iff in H2. destruct H2 as [H2|H2]; [specialize (U _ _ _ H1 H2); discriminate|].
      apply (F (Mrk (S n)) x); auto.
    + intros x H1 H2. rewrite !in_app_iff in H2. destruct H2 as [H2|[H2|H2]]; try (specialize (U _ _ _ H1 H2); discriminate).
      apply (F (Unm (S n)) x); auto.
Qed.

Lemma free_heap_nodup h : LI [] h -> NoDup (free_heap h).
Proof.
  intros I. assert (U := l_uniq _ _ I). assert (N := l_nodup _ _ I). unfold inl in U.
  assert (Fr : forall l x, In x (lists h l) -> In x (freed h) -> False).
  { intros l x H1 H2. destruct (l_gcobj _ _ I l x H1) as [g [b [Hb _]]].
    destruct (l_freed _ _ I _ H2). congruence. }
  unfold free_heap. repeat (apply nodup_app; auto).
  - apply frame_lists_nodup; auto.
  - apply (l_fnd _ _ I).
  - intros x H1 H2. eapply Fr; eauto.
  - intros x H1 H2. rewrite in_app_iff in H2. destruct H2 as [H2|H2]; [specialize (U _ _ _ H1 H2); discriminate|eauto].
  - intros x H1 H2. rewrite !in_app_iff in H2. destruct H2 as [H2|[H2|H2]]; try (specialize (U _ _ _ H1 H2); discriminate); eauto.
  - intros x H1 H2. destruct (frame_lists_out _ _ _ H1) as [d [Hd H3]]. unfold inl in H3.
    rewrite !in_app_iff in H2. destruct H2 as [H2|[H2|[H2|H2]]]; destruct H3 as [H3|[H3|H3]];
      try (specialize (U _ _ _ H2 H3); discriminate); eauto.
Qed.

Lemma free_heap_in h x : LI [] h -> gcobj (mem h) x \/ In x (freed h) -> In x (free_heap h).
Proof.
  intros I H. unfold free_heap. rewrite !in_app_iff. destruct H as [H|H]; [|tauto].
  destruct (l_listed _ _ I _ H) as [[]|[l Hl]]. pose proof (l_above _ _ I _ _ Hl) as Ha.
  destruct l as [d|d|d| | |]; cbn in Ha; try (left; apply (frame_lists_in h x d); auto; fail); unfold inl in Hl; tauto.
Qed.

(** The objects the client asked to create on the collected heap, in a history that
    starts in state [s]: the results of FbleNewNativeValue and FbleNewRefValue. *)
Fixpoint created (fix_ : bool) (s : cst) (os : list op) : list nat :=
  match os with
  | [] => []
  | o :: os' =>
    match exec fix_ s o with
    | None => []
    | Some s' =>
      match o, c_vals s' (top (c_heap s')) with
      | NewNative _, VObj x :: _ | NewRef, VObj x :: _ => x :: created fix_ s' os'
      | _, _ => created fix_ s' os'
      end
    end
  end.

Lemma created_step fix_ s o s' : LI [] (c_heap s) -> exec fix_ s o = Some s' ->
  (o = NewRef \/ exists data, o = NewNative data) ->
  exists x, c_vals s' (top (c_heap s')) = VObj x :: c_vals s (top (c_heap s)) /\
    gcobj (mem (c_heap s')) x /\ fresh (c_heap s) <= x < fresh (c_heap s').
Proof.
  intros I H Ho.
  destruct Ho as [->|[data ->]]; cbn [exec] in H.
  - destruct (new_ref (c_heap s)) as [[h' r]|] eqn:E; [|discriminate]. injection H as <-.
    destruct (li_new_gc _ _ _ _ _ _ I (le_n _) E) as [[K1 [K2 K3]] [K4 [K5 [K6 K7]]]].
    exists r. cbn [c_heap c_vals]. rewrite K3. unfold upd. destruct (Nat.eq_dec _ _); [|congruence].
    split; [reflexivity|]. split; [|lia]. eexists _, _. split; [exact K6|reflexivity].
  - destruct (new_native (c_heap s) data) as [[h' r]|] eqn:E; [|discriminate]. injection H as <-.
    destruct (li_new_gc _ _ _ _ _ _ I (le_n _) E) as [[K1 [K2 K3]] [K4 [K5 [K6 K7]]]].
    exists r. unfold add_val. cbn [c_heap c_vals]. unfold upd. destruct (Nat.eq_dec _ _); [|congruence].
    rewrite K3. split; [reflexivity|]. split; [|lia]. eexists _, _. split; [exact K6|reflexivity].
Qed.

Lemma created_in fix_ os : forall s s', LI [] (c_heap s) -> execs fix_ s os = Some s' ->
  LI [] (c_heap s') /\ acct (c_heap s) (c_heap s') /\
  (forall x, In x (created fix_ s os) -> gcobj (mem (c_heap s')) x \/ In x (freed (c_heap s'))) /\
  NoDup (created fix_ s os) /\ (forall x, In x (created fix_ s os) -> fresh (c_heap s) <= x).
Proof.
  induction os as [|o os IH]; intros s s' I E; cbn [execs created] in *.
  - injection E as <-. split; [exact I|]. split; [apply acct_refl|]. split; [intros x []|]. split; [constructor|intros x []].
  - destruct (exec fix_ s o) as [s1|] eqn:E1; [|discriminate].
    destruct (li_exec _ _ _ _ I E1) as [I1 A1].
    destruct (IH s1 s' I1 E) as [I2 [A2 [C2 [N2 F2]]]].
    split; [exact I2|]. split; [eapply acct_trans; eauto|].
    assert (K : (forall x, In x (created fix_ s1 os) -> gcobj (mem (c_heap s')) x \/ In x (freed (c_heap s'))) /\
        NoDup (created fix_ s1 os) /\ (forall x, In x (created fix_ s1 os) -> fresh (c_heap s) <= x)).
    { split; [exact C2|]. split; [exact N2|]. intros x Hx. pose proof (F2 x Hx). destruct A1. lia. }
    assert (Dn : (o = NewRef \/ exists data, o = NewNative data) \/
       (match o, c_vals s1 (top (c_heap s1)) with
        | NewNative _, VObj x :: _ | NewRef, VObj x :: _ => x :: created fix_ s1 os
        | _, _ => created fix_ s1 os end = created fix_ s1 os)).
    { destruct o; auto; left; eauto. }
    destruct Dn as [Ho|Eq]; [|rewrite Eq; exact K].
    destruct (created_step _ _ _ _ I E1 Ho) as [x [Hv [Hg Hx]]]. rewrite Hv.
    assert (G : (forall y, In y (x :: created fix_ s1 os) -> gcobj (mem (c_heap s')) y \/ In y (freed (c_heap s'))) /\
        NoDup (x :: created fix_ s1 os) /\ (forall y, In y (x :: created fix_ s1 os) -> fresh (c_heap s) <= y)).
    { destruct K as [K1 [K2 K3]]. split; [|split].
      - intros y [<-|Hy]; auto. destruct A2 as [_ [A2 _]]. auto.
      - constructor; auto. intros Hi. pose proof (F2 _ Hi). lia.
      - intros y [<-|Hy]; auto. lia. }
    destruct Ho as [->|[data ->]]; exact G.
Qed.

(** ** C12: for every history of calls (whether or not it respects the contract, as long as
    it does not run into undefined behaviour), followed by FbleFreeValueHeap: no object is
    released twice, and every native value and reference created is released. *)

Theorem each_allocation_released_once fix_ os s : execs fix_ init os = Some s ->
  NoDup (free_heap (c_heap s)) /\
  NoDup (created fix_ init os) /\
  (forall x, In x (created fix_ init os) -> In x (free_heap (c_heap s))).
Proof.
  intros E. destruct (created_in fix_ os init s li_new_heap E) as [I [_ [C [N _]]]].
  split; [apply free_heap_nodup; auto|]. split; [exact N|].
  intros x Hx. apply free_heap_in; auto.
Qed.

(** At every moment before that, nothing freed is still allocated, and what is allocated
    on the collected heap is exactly what FbleFreeValueHeap would still release. *)
Theorem nothing_released_early_or_leaked fix_ os s : execs fix_ init os = Some s ->
  (forall x, In x (freed (c_heap s)) -> mem (c_heap s) x = None) /\
  (forall x, In x (free_heap (c_heap s)) <-> In x (freed (c_heap s)) \/ gcobj (mem (c_heap s)) x).
Proof.
  intros E. destruct (created_in fix_ os init s li_new_heap E) as [I _].
  split; [intros x Hx; apply (l_freed _ _ I); auto|].
  intros x. split; [|intros H; apply free_heap_in; tauto].
  unfold free_heap. rewrite !in_app_iff. intros [H|[H|[H|[H|H]]]]; auto; right.
  - destruct (frame_lists_out _ _ _ H) as [d [_ [Hd|[Hd|Hd]]]]; eapply l_gcobj; eauto.
  - apply (l_gcobj _ _ I GFree x H).
  - apply (l_gcobj _ _ I GMrk x H).
  - apply (l_gcobj _ _ I GUnm x H).
Qed.
