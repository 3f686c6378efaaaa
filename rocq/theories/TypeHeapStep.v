(** * Every step of the collector preserves its invariant. *)
From Coq Require Import List Arith Bool Lia Sorted.
Import ListNotations.
From Verif Require Import TypeHeapModel TypeHeapInv TypeHeapSem.

Record INV (h : theap) : Prop := {
  inv_g : WFG h;
  inv_p : WFP none h;
  inv_s : SEM h
}.

(** ** One traversal *)

Record visited (c : gid) (x : nat) (l : list nat) (fr : bool) (g : nat) (s : side)
       (h h' : theap) : Prop := {
  v_ptrs : same_ptrs h h';
  v_gid : forall k, gidof h' k = gidof h k;
  v_objs : same_objs h h';
  v_free : forall y, In y (freel h') <-> In y (freel h);
  v_cls : forall y, cls h' y =
            if y =? x then gidof h g
            else if (mem y l && movable c (cls h y))%bool then Some c else cls h y;
  v_next : next h' =
             if (gid_eqb c MARK && existsb (fun y => isnew (cls h y)) l &&
                 isnew (gidof h (next h)))%bool then old h else next h;
  v_gens : forall k G, In k (new h :: olds h) -> gens h k = Some G ->
             gens h' k = Some (if k =? g then link_gen fr s x G else G)
}.

Lemma live_new_olds h k : WFG h -> In k (new h :: olds h) ->
  In k (allg h) /\ canon h k = k.
Proof.
  intros W I; split.
  - apply (allg_in h); destruct I as [<-|I]; auto.
  - apply (canon_id h W); destruct I as [<-|I].
    + rewrite (wg_new h W); discriminate.
    + destruct (wg_old h W _ I) as (n & ->); discriminate.
Qed.

Lemma unlink_nin o G : ~ In o (g_roots G) -> ~ In o (g_non G) -> unlink o G = G.
Proof. intros A B; unfold unlink; rewrite !rm_nin by assumption; destruct G; reflexivity. Qed.

Lemma traverse_effect ex h x b c fr g s :
  WFG h -> WFP ex h -> (forall o, ex o -> o = x) ->
  (c = MARK \/ c = SAVE) -> objs h x = Some b -> cls h x = Some c ->
  In g (new h :: olds h) -> (s = Roots <-> o_rc b <> 0) ->
  (forall y, In y (o_refs b) -> cls h y <> None) ->
  (forall k G, In k (new h :: olds h) -> gens h k = Some G -> ~ In x (g_roots G) /\ ~ In x (g_non G)) ->
  exists h', traverse h x fr g s = Some h' /\ WFG h' /\ WFP none h' /\
             visited c x (o_refs b) fr g s h h'.
Proof.
  intros W P EX HC Ox Cx Ig Hs L NI.
  destruct (add_refs_traverse ex x c (o_refs b) h W P EX HC Cx L) as (h1 & E1 & W1 & P1 & T1).
  unfold traverse, refs; rewrite Ox, E1.
  pose proof (tr_objs _ _ _ _ T1 x) as SO; rewrite Ox in SO.
  destruct (objs h1 x) as [b1|] eqn:Ox1; [|destruct SO].
  destruct SO as (R1 & R2).
  destruct T1 as [A1 A2 A3 A4 A5 A6 A7].
  pose proof A1 as A1'. destruct A1' as (Q1&Q2&Q3&Q4&Q5&Q6&Q7).
  assert (Ig1 : In g (new h1 :: olds h1)) by (rewrite Q7, Q3; assumption).
  destruct (live_new_olds h1 g W1 Ig1) as (LG & CG).
  unfold set_gen.
  set (b' := MkObj g (o_rc b1) (o_refs b1)).
  edestruct (relocate ex h1 x b1 b' fr s) as (h' & M & W' & P' & O' & Q' & X' & G' & F' & L');
    try eassumption.
  { assert (C1 : cls h1 x <> None).
    { rewrite A5, Cx; destruct (mem x (o_refs b) && movable c (Some c))%bool; discriminate. }
    intro N; apply C1; unfold cls, gidof; rewrite Ox1, N; reflexivity. }
  { cbn; rewrite R1; assumption. }
  cbn [o_gen b'] in *.
  exists h'; split; [exact M|split; [assumption|split]].
  { eapply WFP_mono; [|exact P']; unfold none; intros o (E & N); apply EX in E; contradiction. }
  destruct Q' as (S1&S2&S3&S4&S5&S6&S7).
  constructor.
  - repeat split; congruence.
  - intro k; rewrite G'; apply A2.
  - eapply same_objs_trans; [exact A3|].
    eapply (same_objs_upd h1 h' x b1 b'); [assumption|assumption|reflexivity|reflexivity].
  - intro y; rewrite F'; apply A4.
  - intro y; rewrite (cls_upd h1 h' x b' O' G' y); cbn [o_gen b'].
    destruct (y =? x); [apply A2|apply A5].
  - rewrite X'; exact A6.
  - intros k G Ik Gk.
    rewrite (L' k G) by (rewrite (A7 k Ik); assumption).
    destruct (NI k G Ik Gk) as (N1 & N2); rewrite (unlink_nin x G N1 N2); reflexivity.
Qed.

(** ** From generations to objects *)

Lemma in_lists h o b :
  WFP none h -> objs h o = Some b ->
  forall G, gens h (canon h (o_gen b)) = Some G ->
  (o_rc b <> 0 -> In o (g_roots G)) /\ (o_rc b = 0 -> In o (g_non G)).
Proof.
  intros P Ob G HG; split; intro R.
  - apply (wp_roots none h P _ _ o HG); [intros []|eauto].
  - apply (wp_non none h P _ _ o HG); [intros []|eauto].
Qed.

Lemma root_in h g G o :
  WFG h -> WFP none h -> gens h g = Some G -> In o (g_roots G) ->
  exists b, objs h o = Some b /\ o_rc b <> 0 /\ canon h (o_gen b) = g /\ cls h o = Some (g_id G).
Proof.
  intros W P HG I; apply (wp_roots none h P _ _ o HG) in I; [|intros []].
  destruct I as (b & Ob & R & C); exists b; split; [assumption|split; [assumption|split; [assumption|]]].
  unfold cls; rewrite Ob, <- (canon_gid h W), C; apply gens_gidof; assumption.
Qed.

Lemma non_in h g G o :
  WFG h -> WFP none h -> gens h g = Some G -> In o (g_non G) ->
  exists b, objs h o = Some b /\ o_rc b = 0 /\ canon h (o_gen b) = g /\ cls h o = Some (g_id G).
Proof.
  intros W P HG I; apply (wp_non none h P _ _ o HG) in I; [|intros []].
  destruct I as (b & Ob & R & C); exists b; split; [assumption|split; [assumption|split; [assumption|]]].
  unfold cls; rewrite Ob, <- (canon_gid h W), C; apply gens_gidof; assumption.
Qed.

(** The generation that holds the objects of a class. *)
Definition gen_of (h : theap) (i : gid) (g : nat) : Prop :=
  gidof h g = Some i /\ canon h g = g.

Lemma cls_canon h o i g :
  WFG h -> cls h o = Some i -> gen_of h i g ->
  exists b, objs h o = Some b /\ canon h (o_gen b) = g.
Proof.
  intros W C (Gi & Gc); destruct (cls_inv _ _ _ C) as (b & Ob & Gb).
  exists b; split; [assumption|].
  destruct i.
  - rewrite (old_eq h W _ _ _ Gb Gi); assumption.
  - rewrite (canon_gc h W _ Gb); rewrite <- Gc; symmetry; apply (canon_gc h W); assumption.
  - apply (gid_mark h W) in Gb; apply (gid_mark h W) in Gi; congruence.
  - apply (gid_save h W) in Gb; apply (gid_save h W) in Gi; congruence.
  - apply (gid_new h W) in Gb; apply (gid_new h W) in Gi; congruence.
Qed.

Lemma gen_of_mark h : WFG h -> gen_of h MARK (mark h).
Proof.
  intro W; split; [apply wg_mark, W|apply (canon_id h W)]; rewrite (wg_mark h W); discriminate.
Qed.
Lemma gen_of_save h : WFG h -> gen_of h SAVE (save h).
Proof.
  intro W; split; [apply wg_save, W|apply (canon_id h W)]; rewrite (wg_save h W); discriminate.
Qed.
Lemma gen_of_new h : WFG h -> gen_of h NEW (new h).
Proof.
  intro W; split; [apply wg_new, W|apply (canon_id h W)]; rewrite (wg_new h W); discriminate.
Qed.
Lemma gen_of_gc h : WFG h -> gen_of h GC (gc h).
Proof.
  intro W; assert (E : gidof h (gc h) = Some GC) by (apply wg_gc; [assumption|apply (gc_in h W)]).
  split; [assumption|apply (canon_gc h W), E].
Qed.
Lemma gen_of_old h g n : WFG h -> gidof h g = Some (OLD n) -> gen_of h (OLD n) g.
Proof.
  intros W E; split; [assumption|apply (canon_id h W)]; rewrite E; discriminate.
Qed.

Lemma gen_empty h i g G :
  WFG h -> WFP none h -> gen_of h i g -> gens h g = Some G ->
  g_roots G = [] -> g_non G = [] -> forall o, cls h o <> Some i.
Proof.
  intros W P GO HG R N o C.
  destruct (cls_canon h o i g W C GO) as (b & Ob & K).
  destruct (in_lists h o b P Ob G) as (A & B); [rewrite K; assumption|].
  destruct (Nat.eq_dec (o_rc b) 0) as [E|E]; [specialize (B E); rewrite N in B; destruct B|].
  specialize (A E); rewrite R in A; destruct A.
Qed.

Lemma gen_roots_empty h i g G :
  WFG h -> WFP none h -> gen_of h i g -> gens h g = Some G ->
  g_roots G = [] -> forall o b, cls h o = Some i -> objs h o = Some b -> o_rc b = 0.
Proof.
  intros W P GO HG R o b C Ob.
  destruct (cls_canon h o i g W C GO) as (b' & Ob' & K).
  assert (b' = b) by congruence; subst b'.
  destruct (in_lists h o b P Ob G) as (A & _); [rewrite K; assumption|].
  destruct (Nat.eq_dec (o_rc b) 0) as [E|E]; [assumption|].
  specialize (A E); rewrite R in A; destruct A.
Qed.

Lemma not_in_other h o b k G :
  WFP none h -> objs h o = Some b -> gens h k = Some G -> canon h (o_gen b) <> k ->
  ~ In o (g_roots G) /\ ~ In o (g_non G).
Proof.
  intros P Ob HG N; split; intro I.
  - apply (wp_roots none h P _ _ o HG) in I; [|intros []]; destruct I as (b' & E & _ & K); congruence.
  - apply (wp_non none h P _ _ o HG) in I; [|intros []]; destruct I as (b' & E & _ & K); congruence.
Qed.

(** ** The order of [next] *)

(** [next] only ever moves to older generations: from [new] to anything, or
    to a generation with a smaller id. *)
Definition next_down (h : theap) (g : nat) : Prop :=
  g = next h \/ next h = new h \/ exists m, gidof h g = Some (OLD m) /\ lt_next h m.

Lemma lt_next_down h h' n :
  (forall k, gidof h' k = gidof h k) -> WFG h -> next_down h (next h') ->
  lt_next h' n -> lt_next h n.
Proof.
  intros G W D L; unfold lt_next in *; rewrite G in L.
  destruct D as [D|[D|(q & Q & Lq)]].
  - rewrite D in L; assumption.
  - rewrite D, (wg_new h W); exact I.
  - rewrite Q in L; unfold lt_next in Lq.
    destruct (gidof h (next h)) as [[]|]; try contradiction; try exact I; lia.
Qed.

Lemma isnew_next h : WFG h -> isnew (gidof h (next h)) = true -> next h = new h.
Proof.
  intros W E; apply (gid_new h W); destruct (gidof h (next h)) as [[]|]; try discriminate; reflexivity.
Qed.

Lemma lt_next_new h n : WFG h -> next h = new h -> lt_next h n.
Proof. intros W E; unfold lt_next; rewrite E, (wg_new h W); exact I. Qed.

(** ** The semantic invariant after visiting an object as marked *)

Lemma visit_mark_sem h h' x b fr s :
  WFG h -> WFG h' -> SEM h -> objs h x = Some b ->
  visited MARK x (o_refs b) fr (old h) s h h' ->
  (* what [x] was before *)
  (cls h x = Some MARK /\ fr = false \/
   (cls h x = Some GC \/ cls h x = Some SAVE) /\ fr = true /\ s = Roots /\
   (forall y, cls h y <> Some MARK) /\
   (forall y, cls h y <> gidof h (old h))) ->
  SEM h'.
Proof.
  intros W W' S Ox V HX.
  destruct (old_gid h W) as (m & HO).
  pose proof (v_ptrs _ _ _ _ _ _ _ _ V) as (Q1&Q2&Q3&Q4&Q5&Q6&Q7).
  assert (OH : old h' = old h) by (unfold old; congruence).
  pose proof (v_gid _ _ _ _ _ _ _ _ V) as VG.
  pose proof (v_cls _ _ _ _ _ _ _ _ V) as VC.
  pose proof (v_next _ _ _ _ _ _ _ _ V) as VN.
  assert (CX : exists c0, cls h x = Some c0 /\ (c0 = MARK \/ c0 = GC \/ c0 = SAVE)).
  { destruct HX as [(E & _)|([E|E] & _)]; eauto. }
  destruct CX as (c0 & CX & C0).
  assert (ED : forall a y, edge h' a y <-> edge h a y).
  { intros; symmetry; apply same_edge, (v_objs _ _ _ _ _ _ _ _ V). }
  assert (EX : forall y, edge h x y <-> In y (o_refs b)).
  { intro y; unfold edge; rewrite Ox; split; [intros (b0 & E & I); congruence|eauto]. }
  assert (ND : next_down h (next h')).
  { rewrite VN; destruct (_ && _ && _)%bool eqn:B; [|left; reflexivity].
    apply andb_true_iff in B; right; left; apply isnew_next; tauto. }
  (* the class of [y] afterwards *)
  assert (C' : forall y d, cls h y = Some d ->
     (y = x /\ cls h' y = Some (OLD m)) \/
     (y <> x /\ In y (o_refs b) /\ (d = GC \/ d = SAVE) /\ cls h' y = Some MARK) \/
     (y <> x /\ (In y (o_refs b) -> d <> GC /\ d <> SAVE) /\ cls h' y = Some d)).
  { intros y d Cy; rewrite VC; destruct (y =? x) eqn:T.
    - apply Nat.eqb_eq in T; left; split; [assumption|rewrite <- HO; reflexivity].
    - apply Nat.eqb_neq in T; right; rewrite Cy.
      destruct (mem y (o_refs b)) eqn:Mm; cbn.
      + apply mem_in in Mm; destruct d; cbn; auto 8;
          right; repeat split; auto; discriminate.
      + apply mem_nin in Mm; right; repeat split; auto; contradiction. }
  (* and conversely *)
  assert (B' : forall y d, cls h' y = Some d ->
     (y = x /\ d = OLD m) \/
     (y <> x /\ In y (o_refs b) /\ (cls h y = Some GC \/ cls h y = Some SAVE) /\ d = MARK) \/
     (y <> x /\ cls h y = Some d)).
  { intros y d Cy; rewrite VC in Cy; destruct (y =? x) eqn:T.
    - apply Nat.eqb_eq in T; left; split; [assumption|congruence].
    - apply Nat.eqb_neq in T; right; destruct (mem y (o_refs b)) eqn:Mm; cbn in Cy; [|auto].
      apply mem_in in Mm; destruct (cls h y) as [[]|]; cbn in Cy; inversion Cy; subst; auto 8. }
  constructor.
  - (* s1 *)
    intros a y c Ca E; apply ED in E.
    destruct (B' _ _ Ca) as [(-> & ->)|[(Na & Ia & Ga & ->)|(Na & Ca0)]].
    + destruct (s1 h S _ _ _ CX E) as (d & Cy & _).
      apply EX in E.
      destruct (C' _ _ Cy) as [(-> & K)|[(_ & _ & _ & K)|(_ & NI & K)]];
        eexists; (split; [exact K|]); intros _; try discriminate.
      apply NI in E; tauto.
    + assert (CA : exists ca, cls h a = Some ca) by (destruct Ga; eauto).
      destruct CA as (ca & CA); destruct (s1 h S _ _ _ CA E) as (d & Cy & _).
      destruct (C' _ _ Cy) as [(-> & K)|[(_ & _ & _ & K)|(_ & NI & K)]];
        eexists; (split; [exact K|]); intros [Q|(n & Q)]; discriminate.
    + destruct (s1 h S _ _ _ Ca0 E) as (d & Cy & D).
      destruct (C' _ _ Cy) as [(-> & K)|[(_ & _ & _ & K)|(_ & NI & K)]];
        eexists; (split; [exact K|]); intro Q; try discriminate; auto.
  - (* s2 *)
    intros a y n Ca Ln E; apply ED in E.
    pose proof (lt_next_down h h' n VG W ND Ln) as Lh.
    rewrite OH, VG.
    destruct (B' _ _ Ca) as [(-> & Q)|[(_ & _ & _ & Q)|(Na & Ca0)]]; [|discriminate|].
    + inversion Q; subst n.
      destruct (s1 h S _ _ _ CX E) as (d & Cy & _); apply EX in E.
      destruct (C' _ _ Cy) as [(-> & K)|[(_ & _ & _ & K)|(_ & NI & K)]].
      * left; exists m; auto.
      * right; auto.
      * destruct d.
        -- left; exists n; split; [assumption|].
           destruct (cls_inv _ _ _ Cy) as (by_ & _ & Gy).
           destruct (old_max h W _ _ Gy) as (p & Ep & Lp); congruence.
        -- apply NI in E; tauto.
        -- right; auto.
        -- apply NI in E; tauto.
        -- (* a reference to a new object: [next] is old now *)
           exfalso.
           assert (EN : existsb (fun y0 => isnew (cls h y0)) (o_refs b) = true).
           { apply existsb_exists; exists y; split; [assumption|rewrite Cy; reflexivity]. }
           rewrite EN in VN; cbn in VN.
           destruct (isnew (gidof h (next h))) eqn:IN.
           ++ unfold lt_next in Ln; rewrite VG, VN, HO in Ln; lia.
           ++ unfold lt_next in Lh; destruct (next_gid h W) as [T|(p & T)];
                rewrite T in IN, Lh; [discriminate|].
              destruct (old_max h W _ _ T) as (q & Eq_ & Lq); rewrite HO in Eq_.
              inversion Eq_; lia.
    + destruct (s2 h S _ _ _ Ca0 Lh E) as [(k & Cy & Lk)|(Cy & On)].
      * destruct (C' _ _ Cy) as [(-> & K)|[(_ & _ & [T|T] & K)|(_ & NI & K)]]; try discriminate.
        -- rewrite CX in Cy; inversion Cy; subst c0.
           destruct C0 as [?|[?|?]]; discriminate.
        -- left; eauto.
      * destruct (C' _ _ Cy) as [(-> & K)|[(_ & _ & [T|T] & K)|(_ & NI & K)]]; try discriminate.
        -- left; exists m; split; [assumption|]; rewrite HO in On; inversion On; lia.
        -- right; auto.
  - (* s3 *)
    intros g G n y HG IG Ln HY.
    pose proof (lt_next_down h h' n VG W ND Ln) as Lh.
    assert (GN : gidof h g = Some (OLD n)) by (rewrite <- VG, (gens_gidof _ _ _ HG), IG; reflexivity).
    assert (Ig : In g (olds h)) by (apply (gid_old h W); eauto).
    destruct (gidof_gens _ _ _ GN) as (G0 & HG0 & IG0).
    pose proof (v_gens _ _ _ _ _ _ _ _ V g G0 (or_intror Ig) HG0) as VG'.
    rewrite HG in VG'; inversion VG' as [EG].
    assert (RE : forall r z, reach h r z -> reach h' r z).
    { intros r z; apply (same_reach _ _ _ _ (v_objs _ _ _ _ _ _ _ _ V)). }
    rewrite OH in HY.
    destruct (g =? old h) eqn:GO.
    + apply Nat.eqb_eq in GO; subst g.
      assert (n = m) by congruence; subst n.
      (* who is in the generation being built, in terms of before *)
      assert (HY' : y = x \/ (In y (o_refs b) /\ y <> x) \/ cls h y = Some (OLD m) \/ cls h y = Some MARK).
      { destruct HY as [HY|(HY & _)]; destruct (B' _ _ HY) as [(-> & _)|[(N & I & _ & _)|(N & C)]]; auto. }
      destruct HX as [(Cx & ->)|(_ & -> & -> & NM & NO)].
      * assert (XR : exists r l, g_roots G0 = r :: l /\ reach h r x).
        { apply (s3 h S (old h) G0 m x HG0 IG0 Lh); auto. }
        assert (YR : exists r l, g_roots G0 = r :: l /\ reach h r y).
        { destruct HY' as [->|[(I & _)|[C|C]]].
          - exact XR.
          - destruct XR as (r & l & E1 & E2); exists r, l; split; [assumption|].
            eapply reach_step; [exact E2|apply EX; assumption].
          - apply (s3 h S (old h) G0 m y HG0 IG0 Lh); auto.
          - apply (s3 h S (old h) G0 m y HG0 IG0 Lh); auto. }
        destruct YR as (r & l & E1 & E2).
        exists r. destruct s; cbn; rewrite E1; cbn; eexists; (split; [reflexivity|apply RE, E2]).
      * exists x, (g_roots G0); split; [reflexivity|].
        destruct HY' as [->|[(I & _)|[C|C]]].
        -- constructor.
        -- eapply reach_step; [constructor|apply ED, EX; assumption].
        -- exfalso; apply (NO y); congruence.
        -- exfalso; apply (NM y); assumption.
    + apply Nat.eqb_neq in GO.
      destruct HY as [HY|(_ & HY)]; [|congruence].
      destruct (B' _ _ HY) as [(-> & T)|[(_ & _ & _ & T)|(N & C)]].
      * inversion T; subst n. exfalso; apply GO, (old_eq h W _ _ _ GN HO).
      * discriminate.
      * destruct (s3 h S g G0 n y HG0 IG0 Lh (or_introl C)) as (r & l & E1 & E2); exists r, l; auto.
Qed.

(** ** The semantic invariant after visiting a saved non-root *)

Lemma visit_save_sem h h' x b fr s :
  WFG h -> WFG h' -> SEM h -> objs h x = Some b ->
  visited SAVE x (o_refs b) fr (new h) s h h' -> cls h x = Some SAVE -> SEM h'.
Proof.
  intros W W' S Ox V Cx.
  pose proof (v_ptrs _ _ _ _ _ _ _ _ V) as (Q1&Q2&Q3&Q4&Q5&Q6&Q7).
  assert (OH : old h' = old h) by (unfold old; congruence).
  pose proof (v_gid _ _ _ _ _ _ _ _ V) as VG.
  pose proof (v_cls _ _ _ _ _ _ _ _ V) as VC.
  pose proof (v_next _ _ _ _ _ _ _ _ V) as VN; cbn in VN.
  assert (ED : forall a y, edge h' a y <-> edge h a y).
  { intros; symmetry; apply same_edge, (v_objs _ _ _ _ _ _ _ _ V). }
  assert (EX : forall y, edge h x y <-> In y (o_refs b)).
  { intro y; unfold edge; rewrite Ox; split; [intros (b0 & E & I); congruence|eauto]. }
  assert (C' : forall y d, cls h y = Some d ->
     (y = x /\ cls h' y = Some NEW) \/
     (y <> x /\ In y (o_refs b) /\ d = GC /\ cls h' y = Some SAVE) \/
     (y <> x /\ (In y (o_refs b) -> d <> GC) /\ cls h' y = Some d)).
  { intros y d Cy; rewrite VC; destruct (y =? x) eqn:T.
    - apply Nat.eqb_eq in T; left; split; [assumption|apply wg_new, W].
    - apply Nat.eqb_neq in T; right; rewrite Cy.
      destruct (mem y (o_refs b)) eqn:Mm; cbn.
      + apply mem_in in Mm; destruct d; cbn; auto 8;
          right; repeat split; auto; discriminate.
      + apply mem_nin in Mm; right; repeat split; auto; contradiction. }
  assert (B' : forall y d, cls h' y = Some d ->
     (y = x /\ d = NEW) \/
     (y <> x /\ In y (o_refs b) /\ cls h y = Some GC /\ d = SAVE) \/
     (y <> x /\ cls h y = Some d)).
  { intros y d Cy; rewrite VC in Cy; destruct (y =? x) eqn:T.
    - apply Nat.eqb_eq in T; left; split; [assumption|rewrite (wg_new h W) in Cy; congruence].
    - apply Nat.eqb_neq in T; right; destruct (mem y (o_refs b)) eqn:Mm; cbn in Cy; [|auto].
      apply mem_in in Mm; destruct (cls h y) as [[]|]; cbn in Cy; inversion Cy; subst; auto 8. }
  assert (LN : forall n, lt_next h' n <-> lt_next h n).
  { intro n; unfold lt_next; rewrite VG, VN; tauto. }
  constructor.
  - intros a y c Ca E; apply ED in E.
    destruct (B' _ _ Ca) as [(-> & ->)|[(Na & Ia & Ga & ->)|(Na & Ca0)]].
    + destruct (s1 h S _ _ _ Cx E) as (d & Cy & _).
      apply EX in E.
      destruct (C' _ _ Cy) as [(-> & K)|[(_ & _ & _ & K)|(_ & NI & K)]];
        eexists; (split; [exact K|]); intros _; try discriminate; auto.
    + destruct (s1 h S _ _ _ Ga E) as (d & Cy & _).
      destruct (C' _ _ Cy) as [(-> & K)|[(_ & _ & _ & K)|(_ & NI & K)]];
        eexists; (split; [exact K|]); intros [Q|(n & Q)]; discriminate.
    + destruct (s1 h S _ _ _ Ca0 E) as (d & Cy & D).
      destruct (C' _ _ Cy) as [(-> & K)|[(_ & _ & _ & K)|(_ & NI & K)]];
        eexists; (split; [exact K|]); intro Q; try discriminate; auto.
  - intros a y n Ca Ln E; apply ED in E; apply LN in Ln; rewrite OH, VG.
    destruct (B' _ _ Ca) as [(-> & Q)|[(_ & _ & _ & Q)|(Na & Ca0)]]; try discriminate.
    destruct (s2 h S _ _ _ Ca0 Ln E) as [(k & Cy & Lk)|(Cy & On)].
    + destruct (C' _ _ Cy) as [(-> & K)|[(_ & _ & T & K)|(_ & NI & K)]]; try discriminate.
      * rewrite Cx in Cy; discriminate.
      * left; eauto.
    + destruct (C' _ _ Cy) as [(-> & K)|[(_ & _ & T & K)|(_ & NI & K)]]; try discriminate.
      * rewrite Cx in Cy; discriminate.
      * right; auto.
  - intros g G n y HG IG Ln HY; apply LN in Ln.
    assert (GN : gidof h g = Some (OLD n)) by (rewrite <- VG, (gens_gidof _ _ _ HG), IG; reflexivity).
    assert (Ig : In g (olds h)) by (apply (gid_old h W); eauto).
    destruct (gidof_gens _ _ _ GN) as (G0 & HG0 & IG0).
    pose proof (v_gens _ _ _ _ _ _ _ _ V g G0 (or_intror Ig) HG0) as VG'.
    assert (GO : (g =? new h) = false).
    { apply Nat.eqb_neq; intros ->; rewrite (wg_new h W) in GN; discriminate. }
    rewrite GO in VG'; rewrite HG in VG'; inversion VG' as [EG].
    assert (HY' : cls h y = Some (OLD n) \/ (cls h y = Some MARK /\ g = old h)).
    { rewrite OH in HY; destruct HY as [HY|(HY & Q)];
        destruct (B' _ _ HY) as [(-> & T)|[(_ & _ & _ & T)|(N & C)]]; try discriminate; auto. }
    destruct (s3 h S g G0 n y HG0 IG0 Ln HY') as (r & l & E1 & E2); exists r, l; split; [assumption|].
    apply (same_reach _ _ _ _ (v_objs _ _ _ _ _ _ _ _ V)); assumption.
Qed.
