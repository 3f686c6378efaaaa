(** * The collector's invariant and the effect of traversing references. *)
From Coq Require Import List Arith Bool Lia Sorted.
Import ListNotations.
From Verif Require Import TypeHeapModel TypeHeapInv.

Definition edge (h : theap) (x y : nat) : Prop :=
  exists b, objs h x = Some b /\ In y (o_refs b).

Inductive reach (h : theap) : nat -> nat -> Prop :=
| reach_refl x : reach h x x
| reach_step x y z : reach h x y -> edge h y z -> reach h x z.

Definition lt_next (h : theap) (n : nat) : Prop :=
  match gidof h (next h) with
  | Some (OLD m) => n < m
  | Some NEW => True
  | _ => False
  end.

Record SEM (h : theap) : Prop := {
  s1 : forall x y c, cls h x = Some c -> edge h x y ->
       exists d, cls h y = Some d /\ ((c = NEW \/ exists n, c = OLD n) -> d <> GC);
  s2 : forall x y n, cls h x = Some (OLD n) -> lt_next h n -> edge h x y ->
       (exists m, cls h y = Some (OLD m) /\ m <= n) \/
       (cls h y = Some MARK /\ gidof h (old h) = Some (OLD n));
  s3 : forall g G n y, gens h g = Some G -> g_id G = OLD n -> lt_next h n ->
       (cls h y = Some (OLD n) \/ (cls h y = Some MARK /\ g = old h)) ->
       exists r l, g_roots G = r :: l /\ reach h r y
}.

(** ** Objects keep their counts and references *)

Definition same_objs (h h' : theap) : Prop :=
  forall o, match objs h o, objs h' o with
            | Some b, Some b' => o_rc b' = o_rc b /\ o_refs b' = o_refs b
            | None, None => True
            | _, _ => False
            end.

Lemma same_objs_refl h : same_objs h h.
Proof. intro o; destruct (objs h o); auto. Qed.

Lemma same_objs_trans a b c : same_objs a b -> same_objs b c -> same_objs a c.
Proof.
  intros A B o; specialize (A o); specialize (B o).
  destruct (objs a o), (objs b o), (objs c o); try tauto.
  destruct A, B; split; congruence.
Qed.

Lemma same_objs_upd h h' o b b' :
  objs h o = Some b -> objs h' = upd (objs h) o (Some b') ->
  o_rc b' = o_rc b -> o_refs b' = o_refs b -> same_objs h h'.
Proof.
  intros E E' R1 R2 x; rewrite E'; unfold upd; destruct (x =? o) eqn:T.
  - apply Nat.eqb_eq in T; subst x; rewrite E; auto.
  - destruct (objs h x); auto.
Qed.

Lemma same_edge h h' x y : same_objs h h' -> (edge h x y <-> edge h' x y).
Proof.
  intro S; specialize (S x); unfold edge; split; intros (b & E & I); rewrite E in S.
  - destruct (objs h' x) as [b'|]; [|tauto]. destruct S as (_ & R); exists b'; rewrite R; auto.
  - destruct (objs h x) as [b'|]; [|tauto]. destruct S as (_ & R); exists b'; rewrite <- R; auto.
Qed.

Lemma reach_mono h h' x y : (forall a b, edge h a b -> edge h' a b) -> reach h x y -> reach h' x y.
Proof.
  intros E; induction 1; [constructor|eapply reach_step; eauto].
Qed.

Lemma same_reach h h' x y : same_objs h h' -> (reach h x y <-> reach h' x y).
Proof.
  intro S; split; apply reach_mono; intros a b; apply (same_edge _ _ _ _ S).
Qed.

Lemma reach_trans h x y z : reach h x y -> reach h y z -> reach h x z.
Proof. intros A B; induction B; [assumption|eapply reach_step; [apply IHB; assumption|eassumption]]. Qed.

Lemma WFP_mono (ex ex' : nat -> Prop) h : (forall o, ex o -> ex' o) -> WFP ex h -> WFP ex' h.
Proof.
  intros E P; constructor; try apply P.
  - intros; eapply (wp_roots ex h P); eauto.
  - intros; eapply (wp_non ex h P); eauto.
Qed.

Lemma WFP_next ex h g : WFP ex h -> WFP ex (set_next h g).
Proof. intro P; constructor; apply P. Qed.

Lemma WFG_next h g : WFG h -> In g (new h :: olds h) -> WFG (set_next h g).
Proof. intros W I; eapply WFG_same; [exact W|repeat split|reflexivity|exact I]. Qed.

Lemma rm_nin o l : ~ In o l -> rm o l = l.
Proof.
  induction l as [|a l IH]; intro N; [reflexivity|].
  change (rm o (a :: l)) with (if negb (a =? o) then a :: rm o l else rm o l).
  destruct (a =? o) eqn:E; cbn.
  - apply Nat.eqb_eq in E; subst; exfalso; apply N; left; reflexivity.
  - rewrite IH; [reflexivity|]; intro; apply N; right; assumption.
Qed.

(** ** One reference of an object being traversed *)

(** Which referenced objects are moved, to the generation of class [c]. *)
Definition movable (c : gid) (d : option gid) : bool :=
  match c, d with
  | MARK, Some GC => true
  | MARK, Some SAVE => true
  | SAVE, Some GC => true
  | _, _ => false
  end.

Definition isnew (d : option gid) : bool :=
  match d with Some NEW => true | _ => false end.

Record traversed (c : gid) (l : list nat) (h h' : theap) : Prop := {
  tr_ptrs : same_ptrs h h';
  tr_gid : forall g, gidof h' g = gidof h g;
  tr_objs : same_objs h h';
  tr_free : forall x, In x (freel h') <-> In x (freel h);
  tr_cls : forall y, cls h' y =
             if (mem y l && movable c (cls h y))%bool then Some c else cls h y;
  tr_next : next h' =
             if (gid_eqb c MARK && existsb (fun y => isnew (cls h y)) l &&
                 isnew (gidof h (next h)))%bool then old h else next h;
  tr_gens : forall g, In g (new h :: olds h) -> gens h' g = gens h g
}.

Definition target (h : theap) (c : gid) : nat :=
  match c with MARK => mark h | _ => save h end.

Lemma add_ref_traverse ex h x y c d :
  WFG h -> WFP ex h -> (forall o, ex o -> o = x) ->
  (c = MARK \/ c = SAVE) -> cls h x = Some c -> cls h y = Some d ->
  exists h', add_ref h x y = Some h' /\ WFG h' /\ WFP ex h' /\ traversed c [y] h h'.
Proof.
  intros W P EX HC Cx Cy.
  destruct (cls_inv _ _ _ Cx) as (s & Os & Gs).
  destruct (cls_inv _ _ _ Cy) as (b & Ob & Gb).
  destruct (gidof_gens _ _ _ Gs) as (sg & HGs & Is).
  destruct (gidof_gens _ _ _ Gb) as (dg & HGb & Ib).
  destruct (old_gid h W) as (m & HO); destruct (gidof_gens _ _ _ HO) as (og & HGo & Io).
  destruct (next_gid h W) as [HN|(nm & HN)];
  destruct (gidof_gens _ _ _ HN) as (ng & HGn & In_);
  unfold add_ref; rewrite Os, Ob, HGs, HGb, HGo, HGn, Is, Ib, Io, In_.
  - (* next is new *)
    assert (E0 : (gid_leb c (OLD m) && gid_ltb c d && gid_ltb c NEW)%bool = false).
    { destruct HC; subst c; reflexivity. }
    rewrite E0; clear E0.
    set (h1 := if (gid_eqb c MARK && gid_eqb d NEW && gid_ltb c NEW)%bool then set_next h (old h) else h).
    assert (N1 : next h1 = if (gid_eqb c MARK && gid_eqb d NEW)%bool then old h else next h).
    { unfold h1; destruct HC; subst c; cbn; destruct d; reflexivity. }
    assert (W1 : WFG h1).
    { unfold h1; destruct (_ && _ && _)%bool; [|assumption].
      apply WFG_next; [assumption|right; apply (old_in h W)]. }
    assert (P1 : WFP ex h1) by (unfold h1; destruct (_ && _ && _)%bool; [apply WFP_next|]; assumption).
    assert (A1 : same_ptrs h h1) by (unfold h1; destruct (_ && _ && _)%bool; repeat split).
    assert (A2 : gens h1 = gens h) by (unfold h1; destruct (_ && _ && _)%bool; reflexivity).
    assert (A3 : objs h1 = objs h) by (unfold h1; destruct (_ && _ && _)%bool; reflexivity).
    assert (A4 : freel h1 = freel h) by (unfold h1; destruct (_ && _ && _)%bool; reflexivity).
    assert (NX : (gid_eqb c MARK && existsb (fun y0 => isnew (cls h y0)) [y] && isnew (gidof h (next h)))%bool
                 = (gid_eqb c MARK && gid_eqb d NEW)%bool).
    { cbn; rewrite Cy, HN, !orb_false_r; cbn; rewrite !andb_true_r.
      f_equal; destruct d; reflexivity. }
    clearbody h1.
    destruct (movable c (Some d)) eqn:MV.
    + assert (M2 : (if gid_eqb d GC then if gid_eqb c MARK then Some (mark h)
                      else if negb (gid_eqb c GC) then Some (save h) else None
                    else if (gid_eqb c MARK && gid_eqb d SAVE)%bool then Some (mark h) else None)
                   = Some (target h c)).
      { destruct HC; subst c; destruct d; try discriminate MV; reflexivity. }
      rewrite M2; unfold set_gen.
      set (b' := MkObj (target h c) (o_rc b) (o_refs b)).
      assert (TG : gidof h1 (target h c) = Some c).
      { unfold gidof; rewrite A2; destruct HC; subst c; [apply (wg_mark h W)|apply (wg_save h W)]. }
      edestruct (relocate ex h1 y b b' false (if o_rc b =? 0 then NonRoots else Roots))
        as (h' & M & W' & P' & O' & Q' & X' & G' & F' & L'); try eassumption.
      { rewrite A3; assumption. }
      { rewrite A2, HGb; discriminate. }
      { apply (gidof_some h1 W1 _ c); exact TG. }
      { apply (canon_id h1 W1); cbn; rewrite TG; destruct HC; subst c; discriminate. }
      { cbn; destruct (o_rc b =? 0) eqn:E; [apply Nat.eqb_eq in E|apply Nat.eqb_neq in E];
          split; intros; try congruence; tauto. }
      exists h'; split; [|split; [assumption|split]].
      * rewrite <- M; cbn [o_gen b'].
        f_equal.
      * eapply WFP_mono; [|exact P']; cbn; tauto.
      * assert (GD : forall g, gidof h1 g = gidof h g) by (intro; unfold gidof; rewrite A2; reflexivity).
        constructor.
        -- destruct Q' as (Q1&Q2&Q3&Q4&Q5&Q6&Q7), A1 as (R1&R2&R3&R4&R5&R6&R7).
           repeat split; congruence.
        -- intro g; rewrite G'; apply GD.
        -- eapply (same_objs_upd h h' y b b'); try reflexivity; [assumption|rewrite O', A3; reflexivity].
        -- intro z; rewrite F', A4; tauto.
        -- intro z. rewrite (cls_upd h1 h' y b' O' G' z).
           cbn [mem existsb]; rewrite orb_false_r; cbn [o_gen b'].
           destruct (z =? y) eqn:T.
           ++ apply Nat.eqb_eq in T; subst z; rewrite Cy, MV; exact TG.
           ++ cbn; unfold cls; rewrite A3; destruct (objs h z); [apply GD|reflexivity].
        -- rewrite X', N1, NX; reflexivity.
        -- intros g Hg.
           assert (Hg' : exists i, gidof h g = Some i /\ i <> GC /\ i <> SAVE /\ i <> MARK).
           { destruct Hg as [<-|Hg].
             - exists NEW; split; [apply wg_new, W|repeat split; discriminate].
             - destruct (wg_old h W _ Hg) as (k & K); exists (OLD k); split;
                 [assumption|repeat split; discriminate]. }
           destruct Hg' as (i & Hi & NI1 & NI2 & NI3).
           destruct (gidof_gens _ _ _ Hi) as (G & HG & IG).
           rewrite (L' g G) by (rewrite A2; assumption).
           assert (TT : (g =? o_gen b') = false).
           { apply Nat.eqb_neq; intros ->; cbn in Hi; rewrite <- GD, TG in Hi.
             inversion Hi; destruct HC; congruence. }
           rewrite TT, HG; f_equal.
           assert (NEX : ~ ex y).
           { intro E; apply EX in E; subst y; assert (DC : d = c) by congruence.
             rewrite DC in MV; destruct HC as [Q|Q]; rewrite Q in MV; discriminate MV. }
           assert (CN : canon h (o_gen b) <> g).
           { intros <-; rewrite (canon_gid h W), Gb in Hi; assert (DI : d = i) by congruence.
             rewrite DI in MV; destruct i; try congruence; destruct c; discriminate MV. }
           assert (P0 : WFP ex h).
           { assumption. }
           destruct G as [gi gr gn]; unfold unlink; cbn; f_equal; apply rm_nin; intro I.
           ++ apply (wp_roots ex h P g _ y HG NEX) in I; destruct I as (b0 & E & _ & K); congruence.
           ++ apply (wp_non ex h P g _ y HG NEX) in I; destruct I as (b0 & E & _ & K); congruence.
    + assert (M2 : (if gid_eqb d GC then if gid_eqb c MARK then Some (mark h)
                      else if negb (gid_eqb c GC) then Some (save h) else None
                    else if (gid_eqb c MARK && gid_eqb d SAVE)%bool then Some (mark h) else None)
                   = None).
      { destruct HC; subst c; destruct d; try discriminate MV; reflexivity. }
      rewrite M2; exists h1; split; [reflexivity|split; [assumption|split; [assumption|]]].
      constructor.
      * assumption.
      * intro; unfold gidof; rewrite A2; reflexivity.
      * intro o; rewrite A3; destruct (objs h o); auto.
      * intro; rewrite A4; tauto.
      * intro z; cbn [mem existsb]; rewrite orb_false_r; destruct (z =? y) eqn:T.
        -- apply Nat.eqb_eq in T; subst z; rewrite Cy, MV; cbn.
           unfold cls in *; rewrite A3; unfold gidof in *; rewrite A2; exact Cy.
        -- cbn; unfold cls, gidof; rewrite A3, A2; reflexivity.
      * rewrite N1, NX; reflexivity.
      * intros; rewrite A2; reflexivity.
  - (* next is old already *)
    assert (E0 : (gid_leb c (OLD m) && gid_ltb c d && gid_ltb c (OLD nm))%bool = false).
    { destruct HC; subst c; reflexivity. }
    rewrite E0; clear E0.
    assert (E1 : (gid_eqb c MARK && gid_eqb d NEW && gid_ltb c (OLD nm))%bool = false).
    { destruct HC; subst c; cbn; rewrite ?andb_false_r; reflexivity. }
    rewrite E1; clear E1.
    assert (NX : (gid_eqb c MARK && existsb (fun y0 => isnew (cls h y0)) [y] && isnew (gidof h (next h)))%bool
                 = false).
    { rewrite HN; cbn; rewrite andb_false_r; reflexivity. }
    destruct (movable c (Some d)) eqn:MV.
    + assert (M2 : (if gid_eqb d GC then if gid_eqb c MARK then Some (mark h)
                      else if negb (gid_eqb c GC) then Some (save h) else None
                    else if (gid_eqb c MARK && gid_eqb d SAVE)%bool then Some (mark h) else None)
                   = Some (target h c)).
      { destruct HC; subst c; destruct d; try discriminate MV; reflexivity. }
      rewrite M2; unfold set_gen.
      set (b' := MkObj (target h c) (o_rc b) (o_refs b)).
      assert (TG : gidof h (target h c) = Some c).
      { destruct HC; subst c; [apply (wg_mark h W)|apply (wg_save h W)]. }
      edestruct (relocate ex h y b b' false (if o_rc b =? 0 then NonRoots else Roots))
        as (h' & M & W' & P' & O' & Q' & X' & G' & F' & L'); try eassumption.
      { rewrite HGb; discriminate. }
      { apply (gidof_some h W _ c); exact TG. }
      { apply (canon_id h W); cbn; rewrite TG; destruct HC; subst c; discriminate. }
      { cbn; destruct (o_rc b =? 0) eqn:E; [apply Nat.eqb_eq in E|apply Nat.eqb_neq in E];
          split; intros; try congruence; tauto. }
      exists h'; split; [|split; [assumption|split]].
      * rewrite <- M; cbn [o_gen b'].
        f_equal.
      * eapply WFP_mono; [|exact P']; cbn; tauto.
      * constructor.
        -- assumption.
        -- assumption.
        -- eapply (same_objs_upd h h' y b b'); try reflexivity; [assumption|rewrite O'; reflexivity].
        -- intro z; rewrite F'; tauto.
        -- intro z. rewrite (cls_upd h h' y b' O' G' z).
           cbn [mem existsb]; rewrite orb_false_r; cbn [o_gen b'].
           destruct (z =? y) eqn:T; [|reflexivity].
           apply Nat.eqb_eq in T; subst z; rewrite Cy, MV; exact TG.
        -- rewrite X', NX; reflexivity.
        -- intros g Hg.
           assert (Hg' : exists i, gidof h g = Some i /\ i <> GC /\ i <> SAVE /\ i <> MARK).
           { destruct Hg as [<-|Hg].
             - exists NEW; split; [apply wg_new, W|repeat split; discriminate].
             - destruct (wg_old h W _ Hg) as (k & K); exists (OLD k); split;
                 [assumption|repeat split; discriminate]. }
           destruct Hg' as (i & Hi & NI1 & NI2 & NI3).
           destruct (gidof_gens _ _ _ Hi) as (G & HG & IG).
           rewrite (L' g G) by assumption.
           assert (TT : (g =? o_gen b') = false).
           { apply Nat.eqb_neq; intros ->; cbn in Hi; rewrite TG in Hi.
             inversion Hi; destruct HC; congruence. }
           rewrite TT, HG; f_equal.
           assert (NEX : ~ ex y).
           { intro E; apply EX in E; subst y; assert (DC : d = c) by congruence.
             rewrite DC in MV; destruct HC as [Q|Q]; rewrite Q in MV; discriminate MV. }
           assert (CN : canon h (o_gen b) <> g).
           { intros <-; rewrite (canon_gid h W), Gb in Hi; assert (DI : d = i) by congruence.
             rewrite DI in MV; destruct i; try congruence; destruct c; discriminate MV. }
           destruct G as [gi gr gn]; unfold unlink; cbn; f_equal; apply rm_nin; intro I.
           ++ apply (wp_roots ex h P g _ y HG NEX) in I; destruct I as (b0 & E & _ & K); congruence.
           ++ apply (wp_non ex h P g _ y HG NEX) in I; destruct I as (b0 & E & _ & K); congruence.
    + assert (M2 : (if gid_eqb d GC then if gid_eqb c MARK then Some (mark h)
                      else if negb (gid_eqb c GC) then Some (save h) else None
                    else if (gid_eqb c MARK && gid_eqb d SAVE)%bool then Some (mark h) else None)
                   = None).
      { destruct HC; subst c; destruct d; try discriminate MV; reflexivity. }
      rewrite M2; exists h; split; [reflexivity|split; [assumption|split; [assumption|]]].
      constructor.
      * repeat split.
      * reflexivity.
      * apply same_objs_refl.
      * tauto.
      * intro z; cbn [mem existsb]; rewrite orb_false_r; destruct (z =? y) eqn:T; [|reflexivity].
        apply Nat.eqb_eq in T; subst z; rewrite Cy, MV; reflexivity.
      * rewrite NX; reflexivity.
      * reflexivity.
Qed.

Lemma add_refs_traverse ex x c l : forall h,
  WFG h -> WFP ex h -> (forall o, ex o -> o = x) ->
  (c = MARK \/ c = SAVE) -> cls h x = Some c -> (forall y, In y l -> cls h y <> None) ->
  exists h', add_refs h x l = Some h' /\ WFG h' /\ WFP ex h' /\ traversed c l h h'.
Proof.
  induction l as [|y l IH]; intros h W P EX HC Cx L.
  - exists h; cbn; split; [reflexivity|split; [assumption|split; [assumption|]]].
    constructor; auto using same_objs_refl; try (repeat split; fail); try tauto.
    rewrite andb_false_r; reflexivity.
  - destruct (cls h y) as [d|] eqn:Cy; [|exfalso; eapply L; [left; reflexivity|assumption]].
    destruct (add_ref_traverse ex h x y c d W P EX HC Cx Cy) as (h1 & E1 & W1 & P1 & T1).
    assert (Cx1 : cls h1 x = Some c).
    { rewrite (tr_cls _ _ _ _ T1), Cx; destruct HC; subst c; cbn; rewrite ?andb_false_r; reflexivity. }
    destruct (IH h1 W1 P1 EX HC Cx1) as (h2 & E2 & W2 & P2 & T2).
    { intros z Iz; rewrite (tr_cls _ _ _ _ T1); destruct (_ && _)%bool; [discriminate|].
      apply L; right; assumption. }
    exists h2; cbn; rewrite E1; split; [assumption|split; [assumption|split; [assumption|]]].
    destruct T1 as [A1 A2 A3 A4 A5 A6 A7], T2 as [B1 B2 B3 B4 B5 B6 B7].
    destruct A1 as (Q1&Q2&Q3&Q4&Q5&Q6&Q7), B1 as (R1&R2&R3&R4&R5&R6&R7).
    constructor.
    + repeat split; congruence.
    + intro g; rewrite B2; apply A2.
    + eapply same_objs_trans; eassumption.
    + intro z; rewrite B4; apply A4.
    + intro z; rewrite B5, A5; cbn [mem existsb]; rewrite orb_false_r.
      fold (mem z l). destruct (z =? y), (mem z l); cbn; try reflexivity;
        destruct (movable c (cls h z)) eqn:M; try reflexivity; try (rewrite M; reflexivity).
      * destruct HC; subst c; reflexivity.
    + assert (NE : forall z, isnew (cls h1 z) = isnew (cls h z)).
      { intro z; rewrite A5; destruct (mem z [y] && movable c (cls h z))%bool eqn:M; [|reflexivity].
        apply andb_true_iff in M; destruct M as (_ & M).
        destruct HC; subst c; destruct (cls h z) as [[]|]; try discriminate M; reflexivity. }
      assert (EE : existsb (fun y0 => isnew (cls h1 y0)) l = existsb (fun y0 => isnew (cls h y0)) l).
      { clear - NE; induction l as [|a l IH]; [reflexivity|cbn; rewrite NE, IH; reflexivity]. }
      rewrite B6, EE, A6, A2; cbn [existsb].
      rewrite orb_false_r.
      assert (O1 : old h1 = old h) by (unfold old; congruence).
      rewrite O1.
      destruct (old_gid h W) as (m & HO).
      generalize (existsb (fun y0 => isnew (cls h y0)) l); intro q.
      destruct (gid_eqb c MARK), (isnew (cls h y)), q, (isnew (gidof h (next h))) eqn:IN;
        cbn; rewrite ?HO, ?IN; reflexivity.
    + intros g Hg; rewrite B7; [apply A7; assumption|].
      destruct Hg as [<-|Hg]; [left; congruence|right; congruence].
Qed.
