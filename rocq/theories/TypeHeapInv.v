(** * Structural invariants of the heap of types. *)
From Coq Require Import List Arith Bool Lia Sorted.
Import ListNotations.
From Verif Require Import TypeHeapModel.

(** ** Ids *)

Lemma gid_eqb_eq a b : gid_eqb a b = true <-> a = b.
Proof.
  destruct a, b; cbn; split; intro H; try discriminate; try reflexivity;
    try (apply Nat.eqb_eq in H; congruence).
  inversion H; apply Nat.eqb_refl.
Qed.

Lemma gid_eqb_refl a : gid_eqb a a = true.
Proof. apply gid_eqb_eq; reflexivity. Qed.

(** ** Lists *)

Lemma in_rm o l x : In x (rm o l) <-> In x l /\ x <> o.
Proof.
  unfold rm; rewrite filter_In, negb_true_iff, Nat.eqb_neq; tauto.
Qed.

Lemma nodup_rm o l : NoDup l -> NoDup (rm o l).
Proof. apply NoDup_filter. Qed.

Lemma in_link fr o l x : In x (link fr o l) <-> x = o \/ In x l.
Proof.
  destruct fr; cbn; [split; intros [->|H]; auto|].
  rewrite in_app_iff; cbn; split; [intros [H|[->|[]]]|intros [->|H]]; auto.
Qed.

Lemma nodup_link fr o l : NoDup l -> ~ In o l -> NoDup (link fr o l).
Proof.
  intros N H; destruct fr; cbn; [constructor; auto|].
  induction l as [|a l IH]; cbn; [repeat constructor; cbn; tauto|].
  inversion N as [|? ? Na Nl]; constructor.
  - rewrite in_app_iff; cbn; intros [?|[->|[]]]; [contradiction|apply H; left; reflexivity].
  - apply IH; [assumption|]; intro; apply H; right; assumption.
Qed.

Lemma mem_in g l : mem g l = true <-> In g l.
Proof.
  unfold mem; rewrite existsb_exists; split.
  - intros (x & Hx & E); apply Nat.eqb_eq in E; subst; assumption.
  - intro H; exists g; split; [assumption|apply Nat.eqb_refl].
Qed.

Lemma mem_nin g l : mem g l = false <-> ~ In g l.
Proof. rewrite <- mem_in; destruct (mem g l); split; congruence. Qed.

Lemma upd_same {A} (f : nat -> A) k v : upd f k v k = v.
Proof. unfold upd; rewrite Nat.eqb_refl; reflexivity. Qed.
Lemma upd_other {A} (f : nat -> A) k v i : i <> k -> upd f k v i = f i.
Proof. intro H; unfold upd; apply Nat.eqb_neq in H; rewrite H; reflexivity. Qed.

(** ** The invariants *)

Definition allg (h : theap) : list nat :=
  mark h :: save h :: new h :: olds h ++ gcs h.

Definition gidof (h : theap) (g : nat) : option gid :=
  match gens h g with Some G => Some (g_id G) | None => None end.

Definition canon (h : theap) (k : nat) : nat :=
  if mem k (gcs h) then gc h else k.

(** The class of an object: the id of its generation; [None] for objects that
    do not exist or are on the free list. *)
Definition cls (h : theap) (o : nat) : option gid :=
  match objs h o with Some b => gidof h (o_gen b) | None => None end.

Definition older (h : theap) (a b : nat) : Prop :=
  exists n m, gidof h a = Some (OLD n) /\ gidof h b = Some (OLD m) /\ m < n.

Record WFG (h : theap) : Prop := {
  wg_nodup : NoDup (allg h);
  wg_live : forall g, gens h g <> None <-> In g (allg h);
  wg_lt : forall g, In g (allg h) -> g < ngens h;
  wg_olds : olds h <> [];
  wg_gcs : gcs h <> [];
  wg_mark : gidof h (mark h) = Some MARK;
  wg_save : gidof h (save h) = Some SAVE;
  wg_new : gidof h (new h) = Some NEW;
  wg_gc : forall g, In g (gcs h) -> gidof h g = Some GC;
  wg_old : forall g, In g (olds h) -> exists n, gidof h g = Some (OLD n);
  wg_sorted : StronglySorted (older h) (olds h);
  wg_next : In (next h) (new h :: olds h)
}.

Record WFP (ex : nat -> Prop) (h : theap) : Prop := {
  wp_roots : forall g G o, gens h g = Some G -> ~ ex o ->
    (In o (g_roots G) <-> exists b, objs h o = Some b /\ o_rc b <> 0 /\ canon h (o_gen b) = g);
  wp_non : forall g G o, gens h g = Some G -> ~ ex o ->
    (In o (g_non G) <-> exists b, objs h o = Some b /\ o_rc b = 0 /\ canon h (o_gen b) = g);
  wp_nodup : forall g G, gens h g = Some G -> NoDup (g_roots G) /\ NoDup (g_non G);
  wp_free : forall o, In o (freel h) <-> exists b, objs h o = Some b /\ gens h (o_gen b) = None;
  wp_free_rc : forall o b, objs h o = Some b -> gens h (o_gen b) = None -> o_rc b = 0;
  wp_free_nd : NoDup (freel h);
  wp_n : forall o, objs h o <> None -> o < nobjs h;
  wp_gen : forall o b, objs h o = Some b -> o_gen b < ngens h
}.

Definition none (_ : nat) : Prop := False.

(** ** Consequences *)

Section Facts.
Variable h : theap.
Hypothesis W : WFG h.

Lemma old_in : In (old h) (olds h).
Proof. unfold old; pose proof (wg_olds h W); destruct (olds h); [congruence|left; reflexivity]. Qed.

Lemma gc_in : In (gc h) (gcs h).
Proof. unfold gc; pose proof (wg_gcs h W); destruct (gcs h); [congruence|left; reflexivity]. Qed.

Lemma allg_in g :
  In g (allg h) <-> g = mark h \/ g = save h \/ g = new h \/ In g (olds h) \/ In g (gcs h).
Proof.
  unfold allg; cbn; rewrite in_app_iff; intuition auto.
Qed.

Lemma gidof_some g i : gidof h g = Some i -> In g (allg h).
Proof.
  intro H; apply (wg_live h W); unfold gidof in H; destruct (gens h g); congruence.
Qed.

Lemma gens_some g : In g (allg h) -> exists G, gens h g = Some G.
Proof.
  intro H; apply (wg_live h W) in H; destruct (gens h g) as [G|]; [eauto|congruence].
Qed.

Lemma gid_mark g : gidof h g = Some MARK <-> g = mark h.
Proof.
  split; [|intros ->; apply wg_mark, W].
  intro H; pose proof (gidof_some _ _ H) as I; apply allg_in in I.
  destruct I as [->|[->|[->|[I|I]]]]; auto.
  - rewrite (wg_save h W) in H; discriminate.
  - rewrite (wg_new h W) in H; discriminate.
  - destruct (wg_old h W _ I) as (n & E); congruence.
  - rewrite (wg_gc h W _ I) in H; discriminate.
Qed.

Lemma gid_save g : gidof h g = Some SAVE <-> g = save h.
Proof.
  split; [|intros ->; apply wg_save, W].
  intro H; pose proof (gidof_some _ _ H) as I; apply allg_in in I.
  destruct I as [->|[->|[->|[I|I]]]]; auto.
  - rewrite (wg_mark h W) in H; discriminate.
  - rewrite (wg_new h W) in H; discriminate.
  - destruct (wg_old h W _ I) as (n & E); congruence.
  - rewrite (wg_gc h W _ I) in H; discriminate.
Qed.

Lemma gid_new g : gidof h g = Some NEW <-> g = new h.
Proof.
  split; [|intros ->; apply wg_new, W].
  intro H; pose proof (gidof_some _ _ H) as I; apply allg_in in I.
  destruct I as [->|[->|[->|[I|I]]]]; auto.
  - rewrite (wg_mark h W) in H; discriminate.
  - rewrite (wg_save h W) in H; discriminate.
  - destruct (wg_old h W _ I) as (n & E); congruence.
  - rewrite (wg_gc h W _ I) in H; discriminate.
Qed.

Lemma gid_gc g : gidof h g = Some GC <-> In g (gcs h).
Proof.
  split; [|apply wg_gc, W].
  intro H; pose proof (gidof_some _ _ H) as I; apply allg_in in I.
  destruct I as [->|[->|[->|[I|I]]]]; auto.
  - rewrite (wg_mark h W) in H; discriminate.
  - rewrite (wg_save h W) in H; discriminate.
  - rewrite (wg_new h W) in H; discriminate.
  - destruct (wg_old h W _ I) as (n & E); congruence.
Qed.

Lemma gid_old g : (exists n, gidof h g = Some (OLD n)) <-> In g (olds h).
Proof.
  split; [|apply wg_old, W].
  intros (n & H); pose proof (gidof_some _ _ H) as I; apply allg_in in I.
  destruct I as [->|[->|[->|[I|I]]]]; auto.
  - rewrite (wg_mark h W) in H; discriminate.
  - rewrite (wg_save h W) in H; discriminate.
  - rewrite (wg_new h W) in H; discriminate.
  - rewrite (wg_gc h W _ I) in H; discriminate.
Qed.

Lemma canon_gc g : gidof h g = Some GC -> canon h g = gc h.
Proof.
  intro H; unfold canon; rewrite (proj2 (mem_in _ _)); [reflexivity|].
  apply gid_gc, H.
Qed.

Lemma canon_id g : gidof h g <> Some GC -> canon h g = g.
Proof.
  intro H; unfold canon; rewrite (proj2 (mem_nin _ _)); [reflexivity|].
  intro I; apply H, gid_gc, I.
Qed.

Lemma canon_live g : In g (allg h) -> In (canon h g) (allg h).
Proof.
  intro I; unfold canon; destruct (mem g (gcs h)); [|assumption].
  apply allg_in; do 4 right; apply gc_in.
Qed.

Lemma canon_gid g : gidof h (canon h g) = gidof h g.
Proof.
  unfold canon; destruct (mem g (gcs h)) eqn:E; [|reflexivity].
  apply mem_in in E; rewrite (wg_gc h W _ E); apply wg_gc; [assumption|apply gc_in].
Qed.

Lemma canon_idem g : canon h (canon h g) = canon h g.
Proof.
  unfold canon at 2 3; destruct (mem g (gcs h)) eqn:E.
  - unfold canon; destruct (mem (gc h) (gcs h)); reflexivity.
  - unfold canon; rewrite E; reflexivity.
Qed.

(** Older generations have different ids, and the head has the largest. *)
Lemma sorted_eq (l : list nat) :
  StronglySorted (older h) l -> forall a b n,
  In a l -> In b l -> gidof h a = Some (OLD n) -> gidof h b = Some (OLD n) -> a = b.
Proof.
  induction 1 as [|x l S IH F]; intros a b n Ia Ib Ha Hb; [destruct Ia|].
  rewrite Forall_forall in F.
  destruct Ia as [->|Ia], Ib as [->|Ib]; auto.
  - destruct (F _ Ib) as (p & q & P & Q & L); rewrite Ha in P; rewrite Hb in Q.
    inversion P; inversion Q; lia.
  - destruct (F _ Ia) as (p & q & P & Q & L); rewrite Hb in P; rewrite Ha in Q.
    inversion P; inversion Q; lia.
  - eapply IH; eauto.
Qed.

Lemma old_eq a b n : gidof h a = Some (OLD n) -> gidof h b = Some (OLD n) -> a = b.
Proof.
  intros Ha Hb; eapply (sorted_eq (olds h)); eauto; [apply wg_sorted, W| |];
    apply gid_old; eauto.
Qed.

Lemma old_max g n : gidof h g = Some (OLD n) ->
  exists m, gidof h (old h) = Some (OLD m) /\ n <= m.
Proof.
  intro H; assert (I : In g (olds h)) by (apply gid_old; eauto).
  pose proof (wg_sorted h W) as St; unfold old; destruct (olds h) as [|x l]; [destruct I|].
  inversion St as [|? ? Sl F]; cbn; destruct I as [->|I]; [eauto|].
  rewrite Forall_forall in F; destruct (F _ I) as (p & q & P & Q & L).
  exists p; split; [assumption|]; rewrite H in Q; inversion Q; lia.
Qed.

Lemma old_gid : exists m, gidof h (old h) = Some (OLD m).
Proof. apply gid_old, old_in. Qed.

Lemma next_gid : gidof h (next h) = Some NEW \/ exists m, gidof h (next h) = Some (OLD m).
Proof.
  destruct (wg_next h W) as [E|I]; [left; rewrite <- E; apply wg_new, W|right; apply wg_old; assumption].
Qed.

End Facts.

Lemma gidof_gens h g i : gidof h g = Some i -> exists G, gens h g = Some G /\ g_id G = i.
Proof. unfold gidof; destruct (gens h g) as [G|]; intro H; inversion H; eauto. Qed.

Lemma gens_gidof h g G : gens h g = Some G -> gidof h g = Some (g_id G).
Proof. unfold gidof; intros ->; reflexivity. Qed.

Lemma cls_inv h o i : cls h o = Some i ->
  exists b, objs h o = Some b /\ gidof h (o_gen b) = Some i.
Proof. unfold cls; destruct (objs h o) as [b|]; [eauto|discriminate]. Qed.

(** ** Moving an object to another generation or list *)

Definition same_ptrs (h h' : theap) : Prop :=
  ngens h' = ngens h /\ nobjs h' = nobjs h /\ olds h' = olds h /\
  mark h' = mark h /\ gcs h' = gcs h /\ save h' = save h /\ new h' = new h.

Lemma WFG_same h h' :
  WFG h -> same_ptrs h h' -> (forall g, gidof h' g = gidof h g) ->
  In (next h') (new h :: olds h) -> WFG h'.
Proof.
  intros W (P1 & P2 & P3 & P4 & P5 & P6 & P7) E N.
  assert (A : allg h' = allg h) by (unfold allg; congruence).
  assert (L : forall g, gens h' g <> None <-> gens h g <> None).
  { intro g; specialize (E g); unfold gidof in E.
    destruct (gens h' g), (gens h g); split; congruence. }
  constructor; rewrite ?A, ?P1, ?P2, ?P3, ?P4, ?P5, ?P6, ?P7, ?E; try apply W.
  - intro g; rewrite L; apply W.
  - intros g I; rewrite E; apply W; assumption.
  - intros g I; rewrite E; apply W; assumption.
  - pose proof (wg_sorted h W) as St; clear - St E.
    induction St as [|a l S IH F]; constructor; [assumption|].
    rewrite Forall_forall in *; intros x Hx; destruct (F x Hx) as (n & m & Q1 & Q2 & Q3).
    exists n, m; rewrite !E; auto.
  - assumption.
Qed.

Lemma relocate ex h o b b' fr s :
  WFG h -> WFP ex h -> objs h o = Some b -> gens h (o_gen b) <> None ->
  In (o_gen b') (allg h) -> canon h (o_gen b') = o_gen b' ->
  (s = Roots <-> o_rc b' <> 0) ->
  exists h', move_to (set_objs h (upd (objs h) o (Some b'))) fr (o_gen b') s o = Some h' /\
    WFG h' /\ WFP (fun k => ex k /\ k <> o) h' /\
    objs h' = upd (objs h) o (Some b') /\ same_ptrs h h' /\ next h' = next h /\
    (forall g, gidof h' g = gidof h g) /\
    (forall x, In x (freel h') <-> In x (freel h)) /\
    (forall g G, gens h g = Some G ->
       gens h' g = Some (if g =? o_gen b' then link_gen fr s o (unlink o G) else unlink o G)).
Proof.
  intros W P O1 O2 I C S1.
  destruct (gens_some h W _ I) as (G0 & HG0).
  unfold move_to; cbn [gens set_objs]; rewrite HG0.
  set (f := fun k => match gens h k with None => None
     | Some G => Some (if k =? o_gen b' then link_gen fr s o (unlink o G) else unlink o G) end).
  eexists; split; [reflexivity|].
  set (h' := set_freel _ _).
  assert (GG : forall g, gens h' g = f g) by reflexivity.
  assert (OO : objs h' = upd (objs h) o (Some b')) by reflexivity.
  assert (SP : same_ptrs h h') by (repeat split).
  assert (NX : next h' = next h) by reflexivity.
  assert (ID : forall g, gidof h' g = gidof h g).
  { intro g; unfold gidof; rewrite GG; unfold f; destruct (gens h g) as [G|]; [|reflexivity].
    destruct (g =? o_gen b'); [destruct s|]; reflexivity. }
  assert (FR : forall x, In x (freel h') <-> In x (freel h)).
  { intro x; change (freel h') with (rm o (freel h)); rewrite in_rm; split; [tauto|].
    intro F; split; [assumption|intros ->].
    apply (wp_free ex h P) in F; destruct F as (b0 & E & N); congruence. }
  assert (NO : forall g, gens h' g = None <-> gens h g = None).
  { intro g; rewrite GG; unfold f; destruct (gens h g); split; congruence. }
  assert (CC : forall k, canon h' k = canon h k) by reflexivity.
  assert (WG : WFG h').
  { eapply WFG_same; [exact W|exact SP|exact ID|rewrite NX; apply W]. }
  repeat (split; [assumption||reflexivity|]).
  split.
  - constructor.
    + intros g G x Hg E; rewrite GG in Hg; unfold f in Hg.
      destruct (gens h g) as [G1|] eqn:Hg1; [|discriminate].
      rewrite OO; destruct (Nat.eq_dec x o) as [->|NE].
      * rewrite upd_same.
        assert (Q : In o (g_roots G) <-> g = o_gen b' /\ s = Roots).
        { destruct (g =? o_gen b') eqn:T; [apply Nat.eqb_eq in T|apply Nat.eqb_neq in T];
            inversion Hg; subst G; [destruct s|]; cbn; rewrite ?in_link, ?in_rm;
            split; try tauto; intros (? & ?); subst; try tauto; try discriminate. }
        rewrite Q; split.
        { intros (-> & ES); exists b'; rewrite CC, <- S1, C; auto. }
        { intros (b0 & E0 & R & K); inversion E0; subst b0; rewrite CC, C in K.
          rewrite S1; auto. }
      * rewrite upd_other by assumption.
        assert (Q : In x (g_roots G) <-> In x (g_roots G1)).
        { destruct (g =? o_gen b'); inversion Hg; subst G; [destruct s|]; cbn;
            rewrite ?in_link, ?in_rm; tauto. }
        rewrite Q; apply (wp_roots ex h P); tauto.
    + intros g G x Hg E; rewrite GG in Hg; unfold f in Hg.
      destruct (gens h g) as [G1|] eqn:Hg1; [|discriminate].
      rewrite OO; destruct (Nat.eq_dec x o) as [->|NE].
      * rewrite upd_same.
        assert (Q : In o (g_non G) <-> g = o_gen b' /\ s = NonRoots).
        { destruct (g =? o_gen b') eqn:T; [apply Nat.eqb_eq in T|apply Nat.eqb_neq in T];
            inversion Hg; subst G; [destruct s|]; cbn; rewrite ?in_link, ?in_rm;
            split; try tauto; intros (? & ?); subst; try tauto; try discriminate. }
        rewrite Q; split.
        { intros (-> & ES); exists b'; rewrite CC, C; split; [reflexivity|split; [|reflexivity]].
          destruct (Nat.eq_dec (o_rc b') 0); [assumption|].
          apply S1 in n; congruence. }
        { intros (b0 & E0 & R & K); inversion E0; subst b0; rewrite CC, C in K.
          split; [auto|]; destruct s; [|reflexivity]. exfalso; apply (proj1 S1); auto. }
      * rewrite upd_other by assumption.
        assert (Q : In x (g_non G) <-> In x (g_non G1)).
        { destruct (g =? o_gen b'); inversion Hg; subst G; [destruct s|]; cbn;
            rewrite ?in_link, ?in_rm; tauto. }
        rewrite Q; apply (wp_non ex h P); tauto.
    + intros g G Hg; rewrite GG in Hg; unfold f in Hg.
      destruct (gens h g) as [G1|] eqn:Hg1; [|discriminate].
      destruct (wp_nodup ex h P _ _ Hg1) as (N1 & N2).
      assert (A1 : ~ In o (rm o (g_roots G1))) by (rewrite in_rm; tauto).
      assert (A2 : ~ In o (rm o (g_non G1))) by (rewrite in_rm; tauto).
      destruct (g =? o_gen b'); inversion Hg; subst G; [destruct s|]; cbn; split;
        auto using nodup_rm, nodup_link.
    + intro x; rewrite FR, (wp_free ex h P), OO; split; intros (b0 & E & N).
      * exists b0; rewrite upd_other; [split; [assumption|apply NO; assumption]|].
        intros ->; congruence.
      * destruct (Nat.eq_dec x o) as [->|NE].
        { rewrite upd_same in E; inversion E; subst b0; apply NO in N; congruence. }
        rewrite upd_other in E by assumption; exists b0; split; [assumption|apply NO; assumption].
    + intros x b0 E N; rewrite OO in E; destruct (Nat.eq_dec x o) as [->|NE].
      { rewrite upd_same in E; inversion E; subst b0; apply NO in N; congruence. }
      rewrite upd_other in E by assumption; eapply (wp_free_rc ex h P); [eassumption|apply NO; assumption].
    + apply nodup_rm, (wp_free_nd ex h P).
    + intros x N; apply (wp_n ex h P); rewrite OO in N.
      destruct (Nat.eq_dec x o) as [->|NE]; [congruence|rewrite upd_other in N by assumption; assumption].
    + intros x b0 E; rewrite OO in E; destruct (Nat.eq_dec x o) as [->|NE].
      { rewrite upd_same in E; inversion E; subst b0; apply (wg_lt h W); assumption. }
      rewrite upd_other in E by assumption; eapply (wp_gen ex h P); eassumption.
  - repeat (split; [assumption|]).
    intros g G Hg; rewrite GG; unfold f; rewrite Hg; reflexivity.
Qed.

Lemma cls_upd h h' o b' :
  objs h' = upd (objs h) o (Some b') -> (forall g, gidof h' g = gidof h g) ->
  forall x, cls h' x = if x =? o then gidof h (o_gen b') else cls h x.
Proof.
  intros E G x; unfold cls; rewrite E; unfold upd; destruct (x =? o); [apply G|].
  destruct (objs h x); [apply G|reflexivity].
Qed.
