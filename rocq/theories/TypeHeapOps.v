(** * The operations clients perform preserve the invariant. *)
From Coq Require Import List Arith Bool Lia Sorted.
Import ListNotations.
From Verif Require Import TypeHeapModel TypeHeapInv TypeHeapSem TypeHeapStep TypeHeapCycle TypeHeapGc.

(** ** A new heap *)

Lemma new_heap_inv : INV new_heap.
Proof.
  constructor.
  - constructor; cbn; try discriminate; try reflexivity; auto.
    + repeat constructor; cbn; lia.
    + intro g; do 5 (destruct g as [|g]; [cbn; split; [auto 8|discriminate]|]).
      cbn; split; [congruence|intro I; exfalso; lia].
    + intros; lia.
    + intros g [<-|[]]; reflexivity.
    + intros g [<-|[]]; exists 0; reflexivity.
    + repeat constructor.
  - assert (L : forall g G, gens new_heap g = Some G -> g_roots G = [] /\ g_non G = []).
    { intros g G; do 5 (destruct g as [|g]; [cbn; intro E; inversion E; auto|]); discriminate. }
    constructor; cbn; try discriminate; try congruence.
    + intros g G o HG _; destruct (L g G HG) as (-> & _); split; [intros []|intros (b & E & _); discriminate].
    + intros g G o HG _; destruct (L g G HG) as (_ & ->); split; [intros []|intros (b & E & _); discriminate].
    + intros g G HG; destruct (L g G HG) as (-> & ->); split; constructor.
    + intro o; split; [intros []|intros (b & E & _); discriminate].
    + constructor.
  - constructor; unfold cls; cbn; try discriminate.
    intros g G n y _ _ _ [E|(E & _)]; discriminate.
Qed.

(** ** Changing the reference count *)

Lemma set_rc_inv h o b rc :
  INV h -> objs h o = Some b -> o_rc b <> 0 -> rc <> 0 ->
  INV (set_objs h (upd (objs h) o (Some (MkObj (o_gen b) rc (o_refs b))))).
Proof.
  intros [W P S] Ob R R'; set (h' := set_objs _ _).
  assert (OO : forall x, match objs h x, objs h' x with
     | Some a, Some a' => o_gen a' = o_gen a /\ o_refs a' = o_refs a /\ (o_rc a' = 0 <-> o_rc a = 0)
     | None, None => True | _, _ => False end).
  { intro x; cbn; unfold upd; destruct (x =? o) eqn:T.
    - apply Nat.eqb_eq in T; subst x; rewrite Ob; cbn; tauto.
    - destruct (objs h x); tauto. }
  assert (EX : forall x (q q' : obj -> Prop),
     (forall a a', o_gen a' = o_gen a -> o_refs a' = o_refs a -> (o_rc a' = 0 <-> o_rc a = 0) -> (q a <-> q' a')) ->
     ((exists a, objs h x = Some a /\ q a) <-> (exists a, objs h' x = Some a /\ q' a))).
  { intros x q q' H; specialize (OO x); split; intros (a & E & Q); rewrite E in OO.
    - destruct (objs h' x) as [a'|]; [|destruct OO]; destruct OO as (A & B & C).
      exists a'; split; [reflexivity|apply (H a a'); assumption].
    - destruct (objs h x) as [a'|]; [|destruct OO]; destruct OO as (A & B & C).
      exists a'; split; [reflexivity|apply (H a' a); assumption]. }
  assert (CL : forall y, cls h' y = cls h y).
  { intro y; specialize (OO y); unfold cls; destruct (objs h y), (objs h' y); try tauto.
    destruct OO as (-> & _); reflexivity. }
  assert (ED : forall x y, edge h' x y <-> edge h x y).
  { intros x y; symmetry; apply EX; intros a a' A B C; rewrite B; tauto. }
  assert (LN : forall n, lt_next h' n <-> lt_next h n) by reflexivity.
  constructor.
  - eapply WFG_same; [exact W|repeat split|reflexivity|apply W].
  - constructor.
    + intros g G x HG _; rewrite (wp_roots none h P g G x HG) by (intros []).
      apply EX; intros a a' A B C; rewrite A. change (canon h' (o_gen a)) with (canon h (o_gen a)); tauto.
    + intros g G x HG _; rewrite (wp_non none h P g G x HG) by (intros []).
      apply EX; intros a a' A B C; rewrite A. change (canon h' (o_gen a)) with (canon h (o_gen a)); tauto.
    + apply (wp_nodup none h P).
    + intro x; change (freel h') with (freel h); rewrite (wp_free none h P).
      apply EX; intros a a' A B C; rewrite A; reflexivity.
    + intros x a' E N; specialize (OO x); rewrite E in OO; destruct (objs h x) as [a|] eqn:E0; [|destruct OO].
      destruct OO as (A & B & C); apply C, (wp_free_rc none h P x a E0); rewrite <- A; exact N.
    + apply (wp_free_nd none h P).
    + intros x N; apply (wp_n none h P); specialize (OO x); destruct (objs h' x); [|congruence].
      destruct (objs h x); [discriminate|destruct OO].
    + intros x a' E; specialize (OO x); rewrite E in OO; destruct (objs h x) as [a|] eqn:E0; [|destruct OO].
      destruct OO as (-> & _); apply (wp_gen none h P _ _ E0).
  - constructor.
    + intros x y c C E; rewrite CL in C; apply ED in E; destruct (s1 h S x y c C E) as (d & D & H).
      exists d; rewrite CL; auto.
    + intros x y n C L E; rewrite !CL in *; apply ED in E; exact (s2 h S x y n C L E).
    + intros g G n y HG IG L HY; rewrite !CL in HY.
      destruct (s3 h S g G n y HG IG L HY) as (r & l & E1 & E2).
      exists r, l; split; [assumption|]; eapply reach_mono; [|exact E2]; intros a c; apply ED.
Qed.

Lemma rm_head o r l : r <> o -> rm o (r :: l) = r :: rm o l.
Proof. intro N; unfold rm; cbn; apply Nat.eqb_neq in N; rewrite N; reflexivity. Qed.

(** The count becomes zero or stops being zero: the object moves to the other
    list of its generation. *)
Lemma swap_side_inv h o b rc s nx :
  INV h -> objs h o = Some b -> cls h o <> None ->
  (s = Roots <-> rc <> 0) ->
  In nx (new h :: olds h) -> next_down h nx ->
  (forall g G n r l, gens h g = Some G -> g_id G = OLD n -> lt_next (set_next h nx) n ->
     g_roots G = r :: l -> r <> o) ->
  let g := canon h (o_gen b) in
  exists h', move_to (set_objs (set_next h nx) (upd (objs h) o (Some (MkObj g rc (o_refs b)))))
                     false g s o = Some h' /\ INV h' /\
    objs h' = upd (objs h) o (Some (MkObj g rc (o_refs b))) /\ nobjs h' = nobjs h.
Proof.
  intros [W P S] Ob NC Hs IN ND HR g.
  set (h0 := set_next h nx).
  assert (W0 : WFG h0) by (apply WFG_next; assumption).
  assert (P0 : WFP none h0) by (apply WFP_next; assumption).
  assert (NG : gens h (o_gen b) <> None).
  { intro N; apply NC; unfold cls, gidof; rewrite Ob, N; reflexivity. }
  assert (LG : In g (allg h)) by (apply (canon_live h W), (wg_live h W), NG).
  destruct (relocate none h0 o b (MkObj g rc (o_refs b)) false s W0 P0 Ob NG LG)
    as (h' & M & W' & P' & O' & Q' & X' & G' & F' & L').
  { apply (canon_idem h). }
  { exact Hs. }
  exists h'; split; [exact M|].
  assert (GD : forall k, gidof h' k = gidof h k) by (intro k; rewrite G'; reflexivity).
  assert (CL : forall y, cls h' y = cls h y).
  { intro y; rewrite (cls_upd h h' o (MkObj g rc (o_refs b)) O' GD y); cbn [o_gen].
    destruct (y =? o) eqn:T; [|reflexivity]. apply Nat.eqb_eq in T; subst y.
    unfold g; rewrite (canon_gid h W); unfold cls; rewrite Ob; reflexivity. }
  assert (ED : forall x y, edge h' x y <-> edge h x y).
  { intros x y; unfold edge; rewrite O'; unfold upd; destruct (x =? o) eqn:T; [|reflexivity].
    apply Nat.eqb_eq in T; subst x; rewrite Ob; split; intros (a & E & I); inversion E; subst a; eauto. }
  assert (OH : old h' = old h) by (destruct Q' as (_ & _ & E & _); unfold old; rewrite E; reflexivity).
  assert (DN : forall n, lt_next h' n -> lt_next h n).
  { intro n; apply (lt_next_down h h' n GD W); rewrite X'; exact ND. }
  split; [|split; [exact O'|apply Q']].
  constructor; [assumption|eapply WFP_mono; [|exact P']; intros x (E & _); exact E|].
  constructor.
  - intros x y c C E; rewrite CL in C; apply ED in E; destruct (s1 h S x y c C E) as (d & D & H).
    exists d; rewrite CL; auto.
  - intros x y n C L E; rewrite !CL in *; apply ED in E; rewrite OH, GD.
    exact (s2 h S x y n C (DN n L) E).
  - intros k K n y HK IK L HY; rewrite !CL, OH in HY.
    assert (GK : gidof h k = Some (OLD n)) by (rewrite <- GD, (gens_gidof _ _ _ HK), IK; reflexivity).
    destruct (gidof_gens _ _ _ GK) as (K0 & HK0 & IK0).
    destruct (s3 h S k K0 n y HK0 IK0 (DN n L) HY) as (r & l & E1 & E2).
    assert (NR : r <> o).
    { apply (HR k K0 n r l HK0 IK0); [|assumption].
      unfold lt_next in *; rewrite GD, X' in L; exact L. }
    rewrite (L' k K0 HK0) in HK; inversion HK; subst K.
    exists r. cbn [o_gen].
    assert (RR : reach h' r y) by (eapply reach_mono; [|exact E2]; intros a c; apply ED).
    destruct (k =? g); [destruct s|]; cbn [link_gen unlink g_roots]; rewrite E1, (rm_head _ _ _ NR); cbn [link app]; eauto.
Qed.

Lemma canonical_eq h g : WFG h -> gens h g <> None -> canonical h g = Some (canon h g).
Proof.
  intros W N; unfold canonical; destruct (gens h g) as [G|] eqn:HG; [|congruence]; f_equal.
  destruct (gid_eqb (g_id G) GC) eqn:E.
  - apply gid_eqb_eq in E; symmetry; apply (canon_gc h W); rewrite (gens_gidof _ _ _ HG), E; reflexivity.
  - symmetry; apply (canon_id h W); rewrite (gens_gidof _ _ _ HG); intro Q; inversion Q as [Q'].
    rewrite Q' in E; discriminate.
Qed.

Lemma retain_inv h o :
  INV h -> cls h o <> None ->
  exists b h' b', objs h o = Some b /\ retain h (Some o) = Some h' /\ INV h' /\ nobjs h' = nobjs h /\
    objs h' = upd (objs h) o (Some b') /\ o_rc b' = S (o_rc b) /\ o_refs b' = o_refs b.
Proof.
  intros I C; pose proof I as [W P Sm].
  destruct (objs h o) as [b|] eqn:Ob; [|exfalso; apply C; unfold cls; rewrite Ob; reflexivity].
  exists b; cbn [retain]; rewrite Ob.
  assert (NG : gens h (o_gen b) <> None).
  { intro N; apply C; unfold cls, gidof; rewrite Ob, N; reflexivity. }
  destruct (o_rc b =? 0) eqn:R.
  - apply Nat.eqb_eq in R; rewrite (canonical_eq h _ W NG).
    destruct (swap_side_inv h o b (S (o_rc b)) Roots (next h) I Ob C) as (h' & M & I' & O' & N').
    { split; [discriminate|reflexivity]. }
    { apply W. }
    { left; reflexivity. }
    { intros g G n r l HG IG _ E ->.
      assert (X : In o (g_roots G)) by (rewrite E; left; reflexivity).
      apply (wp_roots none h P g G o HG) in X; [|intros []].
      destruct X as (b0 & E0 & R0 & _); congruence. }
    exists h', (MkObj (canon h (o_gen b)) (S (o_rc b)) (o_refs b)); split; [reflexivity|].
    split; [exact M|auto].
  - apply Nat.eqb_neq in R; eexists; exists (MkObj (o_gen b) (S (o_rc b)) (o_refs b)); split; [reflexivity|].
    split; [reflexivity|]. split; [apply set_rc_inv; auto|]. repeat split.
Qed.

Lemma gid_ltb_old n m : gid_ltb (OLD n) (OLD m) = true <-> n < m.
Proof. apply Nat.ltb_lt. Qed.

Lemma release_inv h o b :
  INV h -> objs h o = Some b -> o_rc b <> 0 ->
  exists h' b', release h (Some o) = Some h' /\ INV h' /\ nobjs h' = nobjs h /\
    objs h' = upd (objs h) o (Some b') /\ o_rc b' = pred (o_rc b) /\ o_refs b' = o_refs b.
Proof.
  intros I Ob R; pose proof I as [W P Sm]; cbn [release]; rewrite Ob.
  destruct (o_rc b) as [|[|n]] eqn:ER; [congruence| |].
  - assert (NG : gens h (o_gen b) <> None).
    { intro N; pose proof (wp_free_rc none h P _ _ Ob N); congruence. }
    assert (C : cls h o <> None).
    { unfold cls, gidof; rewrite Ob; destruct (gens h (o_gen b)); [discriminate|congruence]. }
    rewrite (canonical_eq h _ W NG); set (g := canon h (o_gen b)).
    assert (LG : In g (allg h)) by (apply (canon_live h W), (wg_live h W), NG).
    destruct (gens_some h W g LG) as (G & HG).
    destruct (old_gid h W) as (m & HO); destruct (gidof_gens _ _ _ HO) as (Og & HOg & IOg).
    destruct (gens_some h W (next h)) as (N & HN).
    { apply allg_in; destruct (wg_next h W) as [<-|Q]; auto. }
    rewrite HG, HN, HOg, IOg.
    (* when [next] is moved to the generation of [o] *)
    set (cond := (gid_ltb (g_id G) (g_id N) && gid_leb (g_id G) (OLD m)
                 && match g_roots G with r :: _ => r =? o | [] => false end)%bool).
    assert (EN : gidof h (next h) = Some (g_id N)) by (apply gens_gidof; assumption).
    assert (EG : gidof h g = Some (g_id G)) by (apply gens_gidof; assumption).
    assert (LTN : forall k, g_id G = OLD k -> (gid_ltb (g_id G) (g_id N) = true <-> lt_next h k)).
    { intros k Ek; unfold lt_next; rewrite EN, Ek.
      destruct (next_gid h W) as [T|(q & T)]; rewrite EN in T; inversion T as [T']; rewrite T'; cbn.
      - tauto.
      - apply Nat.ltb_lt. }
    assert (GO : gid_leb (g_id G) (OLD m) = true -> exists k, g_id G = OLD k).
    { unfold gid_leb; destruct (g_id G); cbn; try discriminate; eauto. }
    destruct (swap_side_inv h o b 0 NonRoots (if cond then g else next h) I Ob C) as (h' & M & I' & O' & N').
    { split; [discriminate|congruence]. }
    { destruct cond eqn:EC; [|apply W].
      unfold cond in EC; apply andb_true_iff in EC; destruct EC as (EC & _); apply andb_true_iff in EC.
      destruct (GO (proj2 EC)) as (k & Ek); right; apply (gid_old h W); exists k; congruence. }
    { destruct cond eqn:EC; [|left; reflexivity].
      unfold cond in EC; apply andb_true_iff in EC; destruct EC as (EC & _); apply andb_true_iff in EC.
      destruct (GO (proj2 EC)) as (k & Ek); right; right; exists k; split; [congruence|].
      apply (LTN k Ek), EC. }
    { intros k K n r l HK IK L E ->.
      assert (X : In o (g_roots K)) by (rewrite E; left; reflexivity).
      apply (wp_roots none h P k K o HK) in X; [|intros []].
      destruct X as (b0 & E0 & R0 & C0); assert (b0 = b) by congruence; subst b0.
      fold g in C0; subst k; assert (K = G) by congruence; subst K.
      assert (ENn : cond = false).
      { destruct cond eqn:EC; [|reflexivity]; exfalso; unfold lt_next in L; cbn [next set_next] in L.
        change (gidof (set_next h g) g) with (gidof h g) in L; rewrite EG, IK in L; lia. }
      rewrite ENn in L; unfold cond in ENn; rewrite E, Nat.eqb_refl, andb_true_r in ENn.
      apply andb_false_iff in ENn; destruct ENn as [ENn|ENn].
      - apply (LTN n IK) in L; congruence.
      - assert (GN : gidof h g = Some (OLD n)) by congruence.
        destruct (old_max h W _ _ GN) as (q & Eq_ & Lq); rewrite HO in Eq_; inversion Eq_; subst q.
        rewrite IK in ENn; unfold gid_leb in ENn; apply negb_false_iff in ENn.
        cbn in ENn; apply Nat.ltb_lt in ENn; lia. }
    exists h', (MkObj g 0 (o_refs b)); split; [|split; [assumption|auto]].
    rewrite <- M; fold g; destruct cond; reflexivity.
  - eexists; exists (MkObj (o_gen b) (S n) (o_refs b)); split; [reflexivity|].
    split; [apply set_rc_inv; auto; congruence|]. repeat split.
Qed.

(** ** Allocation *)

Lemma alloc_inv h :
  INV h -> exists h1 h', alloc h = Some (nobjs h, h') /\ INV h' /\ shrunk h h1 /\
    objs h' = upd (objs h1) (nobjs h) (Some (MkObj (new h1) 1 [])) /\ nobjs h' = S (nobjs h).
Proof.
  intro I; destruct (incr_gc_inv h I) as (f & h1 & E1 & I1 & S1 & _).
  exists h1; unfold alloc; rewrite E1; pose proof I1 as [W P Sm].
  assert (LN : In (new h1) (allg h1)) by (apply allg_in; auto).
  destruct (gens_some h1 W _ LN) as (N & HN); rewrite HN.
  rewrite (sh_nobjs _ _ S1); eexists; split; [reflexivity|]; set (h' := MkHeap _ _ _ _ _ _ _ _ _ _ _).
  set (o := nobjs h) in *.
  assert (EO : nobjs h1 = o) by apply (sh_nobjs _ _ S1).
  assert (NO : objs h1 o = None).
  { destruct (objs h1 o) eqn:E; [|reflexivity]. assert (L : o < nobjs h1) by (apply (wp_n none h1 P); congruence); lia. }
  assert (IN : g_id N = NEW).
  { pose proof (wg_new h1 W) as E; rewrite (gens_gidof _ _ _ HN) in E; congruence. }
  assert (GD : forall k, gidof h' k = gidof h1 k).
  { intro k; unfold gidof; cbn; unfold upd; destruct (k =? new h1) eqn:T; [|reflexivity].
    apply Nat.eqb_eq in T; subst k; rewrite HN; reflexivity. }
  assert (OO : forall x, x <> o -> objs h' x = objs h1 x) by (intros; cbn; apply upd_other; assumption).
  assert (OX : objs h' o = Some (MkObj (new h1) 1 [])) by (cbn; apply upd_same).
  assert (GN : forall k, gens h' k = None <-> gens h1 k = None).
  { intro k; specialize (GD k); unfold gidof in GD; destruct (gens h' k), (gens h1 k); split; congruence. }
  assert (W' : WFG h').
  { assert (AG : allg h' = allg h1) by reflexivity.
    constructor; rewrite ?AG; try apply W; try (rewrite GD; apply W).
    - intro k; rewrite <- (wg_live h1 W); rewrite GN; tauto.
    - intros k Ik; rewrite GD; apply W; assumption.
    - intros k Ik; rewrite GD; apply W; assumption.
    - apply (sorted_mono h1); [intros; apply GD|apply W]. }
  assert (CN : canon h1 (new h1) = new h1).
  { apply (canon_id h1 W); rewrite (wg_new h1 W); discriminate. }
  assert (FR : forall g G, gens h1 g = Some G -> ~ In o (g_roots G) /\ ~ In o (g_non G)).
  { intros g G HG; split; intro X.
    - apply (wp_roots none h1 P g G o HG) in X; [|intros []]; destruct X as (b0 & E & _); congruence.
    - apply (wp_non none h1 P g G o HG) in X; [|intros []]; destruct X as (b0 & E & _); congruence. }
  assert (GG : forall g G, gens h' g = Some G -> exists G1, gens h1 g = Some G1 /\ g_non G = g_non G1 /\
     g_roots G = if g =? new h1 then o :: g_roots G1 else g_roots G1).
  { intros g G HG; cbn in HG; unfold upd in HG; destruct (g =? new h1) eqn:T.
    - apply Nat.eqb_eq in T; subst g; inversion HG; subst G; exists N; auto.
    - exists G; auto. }
  assert (P' : WFP none h').
  { constructor.
    - intros g G x HG _; destruct (GG g G HG) as (G1 & HG1 & _ & R1); rewrite R1.
      destruct (Nat.eq_dec x o) as [->|NE].
      + rewrite OX; split.
        * intro X; exists (MkObj (new h1) 1 []); split; [reflexivity|split; [discriminate|]].
          destruct (g =? new h1) eqn:T; [|exfalso; apply (proj1 (FR g G1 HG1)), X].
          apply Nat.eqb_eq in T; subst g; exact CN.
        * intros (b0 & E & _ & K); inversion E; subst b0; cbn [o_gen] in K.
          change (canon h' (new h1)) with (canon h1 (new h1)) in K; rewrite CN in K; subst g.
          rewrite Nat.eqb_refl; left; reflexivity.
      + rewrite OO by assumption.
        assert (E : In x (if g =? new h1 then o :: g_roots G1 else g_roots G1) <-> In x (g_roots G1)).
        { destruct (g =? new h1); [|tauto]; cbn; split; [intros [?|?]; [congruence|assumption]|auto]. }
        rewrite E; apply (wp_roots none h1 P g G1 x HG1); intros [].
    - intros g G x HG _; destruct (GG g G HG) as (G1 & HG1 & R1 & _); rewrite R1.
      destruct (Nat.eq_dec x o) as [->|NE].
      + rewrite OX; split; [intro X; exfalso; apply (proj2 (FR g G1 HG1)), X|].
        intros (b0 & E & Z & _); inversion E; subst b0; discriminate.
      + rewrite OO by assumption; apply (wp_non none h1 P g G1 x HG1); intros [].
    - intros g G HG; destruct (GG g G HG) as (G1 & HG1 & R1 & R2); rewrite R1, R2.
      destruct (wp_nodup none h1 P _ _ HG1) as (A & B); split; [|assumption].
      destruct (g =? new h1); [constructor; [apply (proj1 (FR g G1 HG1))|assumption]|assumption].
    - intro x; change (freel h') with (freel h1); rewrite (wp_free none h1 P).
      destruct (Nat.eq_dec x o) as [->|NE].
      + rewrite OX, NO; split; intros (b0 & E & Z); inversion E; subst b0; cbn in Z.
        exfalso; apply GN in Z; congruence.
      + rewrite OO by assumption; split; intros (b0 & E & Z); exists b0; split; auto; apply GN; assumption.
    - intros x b0 E Z; apply GN in Z; destruct (Nat.eq_dec x o) as [->|NE].
      + rewrite OX in E; inversion E; subst b0; cbn in Z; congruence.
      + rewrite OO in E by assumption; apply (wp_free_rc none h1 P _ _ E Z).
    - apply (wp_free_nd none h1 P).
    - intros x Z; change (nobjs h') with (S o); destruct (Nat.eq_dec x o) as [->|NE]; [lia|].
      rewrite OO in Z by assumption; pose proof (wp_n none h1 P x Z); lia.
    - intros x b0 E; destruct (Nat.eq_dec x o) as [->|NE].
      + rewrite OX in E; inversion E; subst b0; cbn; apply (wg_lt h1 W), LN.
      + rewrite OO in E by assumption; apply (wp_gen none h1 P _ _ E). }
  assert (CL : forall y, cls h' y = if y =? o then Some NEW else cls h1 y).
  { intro y; destruct (y =? o) eqn:T.
    - apply Nat.eqb_eq in T; subst y; unfold cls; rewrite OX; cbn [o_gen]; rewrite GD; apply (wg_new h1 W).
    - apply Nat.eqb_neq in T; unfold cls; rewrite OO by assumption; destruct (objs h1 y); [apply GD|reflexivity]. }
  assert (ED : forall x y, edge h' x y <-> edge h1 x y).
  { intros x y; unfold edge; destruct (Nat.eq_dec x o) as [->|NE].
    - rewrite OX, NO; split; intros (b0 & E & J); inversion E; subst b0; destruct J.
    - rewrite OO by assumption; reflexivity. }
  assert (CO : forall y d, cls h1 y = Some d -> cls h' y = Some d).
  { intros y d C; rewrite CL; destruct (y =? o) eqn:T; [|assumption].
    apply Nat.eqb_eq in T; subst y; unfold cls in C; rewrite NO in C; discriminate. }
  assert (LT : forall n, lt_next h' n <-> lt_next h1 n).
  { intro n; unfold lt_next; rewrite GD; change (next h') with (next h1); tauto. }
  split; [|split; [assumption|split; reflexivity]].
  constructor; [assumption|assumption|]; constructor.
  - intros x y c C E; apply ED in E; rewrite CL in C; destruct (x =? o) eqn:T.
    + apply Nat.eqb_eq in T; subst x; destruct E as (b0 & E & _); congruence.
    + destruct (s1 h1 Sm x y c C E) as (d & D & H); exists d; split; [apply CO; assumption|assumption].
  - intros x y n C L E; apply ED in E; apply LT in L; rewrite CL in C; destruct (x =? o) eqn:T; [discriminate|].
    change (old h') with (old h1); rewrite GD.
    destruct (s2 h1 Sm x y n C L E) as [(m & D & K)|(D & K)]; [left; exists m|right]; split; auto.
  - intros g G n y HG IG L HY; apply LT in L; change (old h') with (old h1) in HY.
    destruct (GG g G HG) as (G1 & HG1 & _ & R1).
    assert (I1' : g_id G1 = OLD n).
    { assert (E : gidof h' g = Some (OLD n)) by (rewrite (gens_gidof _ _ _ HG), IG; reflexivity).
      rewrite GD, (gens_gidof _ _ _ HG1) in E; congruence. }
    assert (T : (g =? new h1) = false).
    { apply Nat.eqb_neq; intros ->; rewrite HN in HG1; inversion HG1; subst G1; congruence. }
    rewrite T in R1; rewrite R1.
    assert (HY' : cls h1 y = Some (OLD n) \/ cls h1 y = Some MARK /\ g = old h1).
    { rewrite CL in HY; destruct (y =? o); [destruct HY as [?|(? & _)]; discriminate|assumption]. }
    destruct (s3 h1 Sm g G1 n y HG1 I1' L HY') as (r & l & E1' & E2).
    exists r, l; split; [assumption|]; eapply reach_mono; [|exact E2]; intros a c; apply ED.
Qed.
