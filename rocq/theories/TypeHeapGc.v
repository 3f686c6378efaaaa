(** * Collector steps, cycles and full collections. *)
From Coq Require Import List Arith Bool Lia Sorted.
Import ListNotations.
From Verif Require Import TypeHeapModel TypeHeapInv TypeHeapSem TypeHeapStep TypeHeapCycle.

Definition busy (c : option gid) : bool :=
  match c with Some GC | Some MARK | Some SAVE => true | _ => false end.

(** No new or saved objects: so in a cycle with no client activity. *)
Definition quiet (h : theap) : Prop :=
  next h = new h /\ forall y, cls h y <> Some NEW /\ cls h y <> Some SAVE.

Definition settled (h : theap) : Prop :=
  next h = new h /\ forall y i, cls h y = Some i -> exists n, i = OLD n.

Lemma settled_quiet h : settled h -> quiet h.
Proof.
  intros (N & Q); split; [assumption|]; intro y; split; intro C; destruct (Q _ _ C); discriminate.
Qed.

(** ** Visiting *)

Record progress (h h' : theap) : Prop := {
  pg_objs : same_objs h h';
  pg_nobjs : nobjs h' = nobjs h;
  pg_free : forall y, In y (freel h') <-> In y (freel h);
  pg_busy : forall y, busy (cls h' y) = true -> busy (cls h y) = true;
  pg_dec : exists x, objs h x <> None /\ busy (cls h x) = true /\ busy (cls h' x) = false;
  pg_quiet : quiet h -> quiet h'
}.

Lemma visited_progress c x b fr g s h h' :
  WFG h -> visited c x (o_refs b) fr g s h h' -> objs h x = Some b ->
  (c = MARK /\ g = old h \/ c = SAVE /\ g = new h /\ cls h x = Some SAVE) ->
  busy (cls h x) = true -> progress h h'.
Proof.
  intros W V Ox HC B.
  pose proof (v_cls _ _ _ _ _ _ _ _ V) as VC.
  pose proof (v_ptrs _ _ _ _ _ _ _ _ V) as (Q1&Q2&Q3&Q4&Q5&Q6&Q7).
  assert (BG : busy (gidof h g) = false).
  { destruct HC as [(_ & ->)|(_ & -> & _)].
    - destruct (old_gid h W) as (m & ->); reflexivity.
    - rewrite (wg_new h W); reflexivity. }
  constructor.
  - apply (v_objs _ _ _ _ _ _ _ _ V).
  - assumption.
  - apply (v_free _ _ _ _ _ _ _ _ V).
  - intros y By; rewrite VC in By; destruct (y =? x) eqn:T; [congruence|].
    destruct (mem y (o_refs b) && movable c (cls h y))%bool eqn:M; [|assumption].
    apply andb_true_iff in M; destruct M as (_ & M).
    destruct c, (cls h y) as [[]|]; try discriminate; reflexivity.
  - exists x; split; [congruence|split; [assumption|]]. rewrite VC, Nat.eqb_refl; assumption.
  - intros (N & Q).
    destruct HC as [(-> & ->)|(_ & _ & E)]; [|exfalso; apply (proj2 (Q x)); assumption].
    split.
    + rewrite (v_next _ _ _ _ _ _ _ _ V), Q7.
      assert (EN : existsb (fun y => isnew (cls h y)) (o_refs b) = false).
      { destruct (existsb _ _) eqn:E; [|reflexivity]; apply existsb_exists in E.
        destruct E as (y & _ & Y); exfalso; apply (proj1 (Q y)).
        destruct (cls h y) as [[]|]; try discriminate; reflexivity. }
      rewrite EN; exact N.
    + intro y; rewrite VC; destruct (y =? x).
      * destruct (old_gid h W) as (m & ->); split; discriminate.
      * destruct (_ && _)%bool; [split; discriminate|apply Q].
Qed.

Lemma progress_pre h h1 h' :
  objs h1 = objs h -> nobjs h1 = nobjs h -> (forall y, cls h1 y = cls h y) ->
  next h1 = next h -> new h1 = new h -> freel h1 = freel h ->
  progress h1 h' -> progress h h'.
Proof.
  intros E1 E2 E3 E4 E5 E6 [A1 A2 A3 A4 A5 A6]; constructor.
  - intro o; specialize (A1 o); rewrite E1 in A1; exact A1.
  - congruence.
  - intro y; rewrite A3, E6; tauto.
  - intros y By; rewrite <- E3; auto.
  - destruct A5 as (x & B1 & B2 & B3); exists x; rewrite <- E1, <- E3; auto.
  - intros (Q1 & Q2); apply A6; split; [congruence|intro y; rewrite E3; apply Q2].
Qed.

Lemma edges_live h x b c :
  SEM h -> objs h x = Some b -> cls h x = Some c -> forall y, In y (o_refs b) -> cls h y <> None.
Proof.
  intros S Ox Cx y I; destruct (s1 h S x y c Cx) as (d & D & _); [exists b; auto|congruence].
Qed.

Lemma not_in_new_olds h x b c :
  WFG h -> WFP none h -> objs h x = Some b -> cls h x = Some c -> busy (Some c) = true ->
  forall k G, In k (new h :: olds h) -> gens h k = Some G -> ~ In x (g_roots G) /\ ~ In x (g_non G).
Proof.
  intros W P Ox Cx B k G Ik HG; apply (not_in_other h x b k G P Ox HG).
  intro E; unfold cls in Cx; rewrite Ox in Cx; rewrite <- (canon_gid h W), E in Cx.
  destruct Ik as [<-|Ik].
  - rewrite (wg_new h W) in Cx; inversion Cx; subst c; discriminate.
  - destruct (wg_old h W _ Ik) as (n & En); rewrite En in Cx; inversion Cx; subst c; discriminate.
Qed.

Lemma existsb_ext (f g : nat -> bool) l : (forall y, f y = g y) -> existsb f l = existsb g l.
Proof. intro E; induction l as [|a l IH]; [reflexivity|cbn; rewrite E, IH; reflexivity]. Qed.

(** Traversing a marked object. *)
Lemma traverse_mark h x b s :
  INV h -> objs h x = Some b -> cls h x = Some MARK -> (s = Roots <-> o_rc b <> 0) ->
  exists h', traverse h x false (old h) s = Some h' /\ INV h' /\ progress h h'.
Proof.
  intros [W P S] Ox Cx Hs.
  edestruct (traverse_effect none h x b MARK false (old h) s) as (h' & E & W' & P' & V);
    try eassumption; auto.
  - intros o [].
  - right; apply (old_in h W).
  - eapply edges_live; eassumption.
  - eapply not_in_new_olds; eauto.
  - exists h'; split; [assumption|split].
    + constructor; auto. eapply (visit_mark_sem h h' x b); eauto.
    + eapply visited_progress; eauto. rewrite Cx; reflexivity.
Qed.

(** Traversing a saved non-root. *)
Lemma traverse_save h x b :
  INV h -> objs h x = Some b -> cls h x = Some SAVE -> o_rc b = 0 ->
  exists h', traverse h x true (new h) NonRoots = Some h' /\ INV h' /\ progress h h'.
Proof.
  intros [W P S] Ox Cx Hs.
  edestruct (traverse_effect none h x b SAVE true (new h) NonRoots) as (h' & E & W' & P' & V);
    try eassumption; auto.
  - intros o [].
  - left; reflexivity.
  - split; [discriminate|congruence].
  - eapply edges_live; eassumption.
  - eapply not_in_new_olds; eauto.
  - exists h'; split; [assumption|split].
    + constructor; auto. eapply (visit_save_sem h h' x b); eauto.
    + eapply visited_progress; eauto. rewrite Cx; reflexivity.
Qed.

(** Traversing a root of [gc] or [save]. *)
Lemma traverse_root_inv h x b :
  INV h -> objs h x = Some b -> (cls h x = Some GC \/ cls h x = Some SAVE) -> o_rc b <> 0 ->
  (forall y, cls h y <> Some MARK) -> (forall y, cls h y <> gidof h (old h)) ->
  exists h', traverse_root h x = Some h' /\ INV h' /\ progress h h'.
Proof.
  intros [W P S] Ox Cx R NM NO.
  unfold traverse_root; rewrite Ox.
  set (b1 := MkObj (mark h) (o_rc b) (o_refs b)).
  set (hm := set_gen h x b (mark h)).
  assert (BX : exists c, cls h x = Some c /\ (c = GC \/ c = SAVE)) by (destruct Cx; eauto).
  destruct BX as (c & Cc & Hc).
  assert (OM : objs hm = upd (objs h) x (Some b1)) by reflexivity.
  assert (GM : forall g, gidof hm g = gidof h g) by reflexivity.
  assert (CM : forall y, cls hm y = if y =? x then Some MARK else cls h y).
  { intro y; rewrite (cls_upd h hm x b1 OM GM y); destruct (y =? x); [apply (wg_mark h W)|reflexivity]. }
  assert (WM : WFG hm) by (eapply WFG_same; [exact W|repeat split|reflexivity|apply W]).
  assert (NG : gens h (o_gen b) <> None).
  { destruct (cls_inv _ _ _ Cc) as (b0 & Ob0 & Gb0); assert (b0 = b) by congruence; subst b0.
    unfold gidof in Gb0; destruct (gens h (o_gen b)); congruence. }
  assert (NGM : gens h (mark h) <> None).
  { apply (wg_live h W), allg_in; auto. }
  assert (PM : WFP (eq x) hm).
  { constructor.
    - intros g G o HG N; rewrite OM, upd_other by congruence.
      apply (wp_roots none h P); [exact HG|intros []].
    - intros g G o HG N; rewrite OM, upd_other by congruence.
      apply (wp_non none h P); [exact HG|intros []].
    - apply (wp_nodup none h P).
    - intro o; change (freel hm) with (freel h); rewrite (wp_free none h P), OM; split; intros (b0 & E & N).
      + exists b0; rewrite upd_other; [auto|]. intros ->; congruence.
      + destruct (Nat.eq_dec o x) as [->|NE].
        * rewrite upd_same in E; inversion E; subst b0; contradiction.
        * rewrite upd_other in E by assumption; eauto.
    - intros o b0 E N; rewrite OM in E; destruct (Nat.eq_dec o x) as [->|NE].
      + rewrite upd_same in E; inversion E; subst b0; contradiction.
      + rewrite upd_other in E by assumption; apply (wp_free_rc none h P _ _ E N).
    - apply (wp_free_nd none h P).
    - intros o N; apply (wp_n none h P); rewrite OM in N; destruct (Nat.eq_dec o x) as [->|NE]; [congruence|].
      rewrite upd_other in N by assumption; assumption.
    - intros o b0 E; rewrite OM in E; destruct (Nat.eq_dec o x) as [->|NE].
      + rewrite upd_same in E; inversion E; subst b0; apply (wg_lt h W), allg_in; auto.
      + rewrite upd_other in E by assumption; apply (wp_gen none h P _ _ E). }
  edestruct (traverse_effect (eq x) hm x b1 MARK true (old h) Roots) as (h' & E & W' & P' & V);
    try eassumption; auto.
  - rewrite OM; apply upd_same.
  - rewrite CM, Nat.eqb_refl; reflexivity.
  - right; apply (old_in h W).
  - cbn; tauto.
  - cbn; intros y I; rewrite CM; destruct (y =? x); [discriminate|].
    eapply edges_live; eassumption.
  - intros k G Ik HG; eapply (not_in_new_olds h x b c); eauto.
    destruct Hc; subst c; reflexivity.
  - assert (SO : same_objs h hm).
    { eapply (same_objs_upd h hm x b b1); auto. }
    assert (V0 : visited MARK x (o_refs b) true (old h) Roots h h').
    { destruct V as [V1 V2 V3 V4 V5 V6 V7]; constructor.
      - exact V1.
      - exact V2.
      - eapply same_objs_trans; eassumption.
      - exact V4.
      - intro y; rewrite V5, CM; destruct (y =? x) eqn:T; [reflexivity|]; reflexivity.
      - rewrite V6.
        assert (EE : existsb (fun y => isnew (cls hm y)) (o_refs b1) = existsb (fun y => isnew (cls h y)) (o_refs b)).
        { apply existsb_ext; intro a; rewrite CM.
          destruct (a =? x) eqn:T; [|reflexivity].
          apply Nat.eqb_eq in T; rewrite T, Cc; destruct Hc as [Q|Q]; rewrite Q; reflexivity. }
        rewrite EE; reflexivity.
      - exact V7. }
    exists h'; split; [exact E|split].
    + constructor; auto. eapply (visit_mark_sem h h' x b true Roots); eauto 8.
    + eapply visited_progress; eauto. rewrite Cc; destruct Hc; subst c; reflexivity.
Qed.

(** ** [gc_step] *)

Record finished (h h' : theap) : Prop := {
  fi_objs : objs h' = objs h;
  fi_nobjs : nobjs h' = nobjs h;
  fi_quiet : quiet h';
  fi_settled : quiet h -> settled h';
  fi_free : forall y, In y (freel h') <-> In y (freel h) \/ cls h y = Some GC
}.

Lemma gc_step_inv h :
  INV h -> exists f h', gc_step h = Some (f, h') /\ INV h' /\
    if f : bool then finished h h' else progress h h'.
Proof.
  intro I; pose proof I as [W P S].
  unfold gc_step.
  destruct (gens_some h W (mark h)) as (M & HM); [apply allg_in; auto|]; rewrite HM.
  assert (IM : g_id M = MARK).
  { pose proof (wg_mark h W) as E; rewrite (gens_gidof _ _ _ HM) in E; congruence. }
  destruct (g_non M) as [|x xs] eqn:EN.
  2:{ destruct (non_in h (mark h) M x W P HM) as (b & Ob & R & C & K); [rewrite EN; left; reflexivity|].
      rewrite IM in K.
      destruct (traverse_mark h x b NonRoots I Ob K) as (h' & E & I' & PG); [split; [discriminate|congruence]|].
      rewrite E; exists false, h'; auto. }
  destruct (g_roots M) as [|x xs] eqn:ER.
  2:{ destruct (root_in h (mark h) M x W P HM) as (b & Ob & R & C & K); [rewrite ER; left; reflexivity|].
      rewrite IM in K.
      destruct (traverse_mark h x b Roots I Ob K) as (h' & E & I' & PG); [tauto|].
      rewrite E; exists false, h'; auto. }
  assert (NM : forall y, cls h y <> Some MARK).
  { apply (gen_empty h MARK (mark h) M W P (gen_of_mark h W) HM ER EN). }
  destruct (next_old_inv h I NM) as (h1 & E1 & I1 & O1 & N1 & C1 & Z1 & G1 & Q1 & Q2 & Q3 & Q4 & Q5 & Q6).
  rewrite E1; pose proof I1 as [W1 P1 S1].
  assert (NM1 : forall y, cls h1 y <> Some MARK) by (intro y; rewrite C1; apply NM).
  destruct (gens_some h1 W1 (gc h1)) as (G & HG); [apply allg_in; do 4 right; apply (gc_in h1 W1)|].
  destruct (gens_some h1 W1 (save h1)) as (V & HV); [apply allg_in; auto|].
  rewrite HG, HV.
  assert (IG : g_id G = GC).
  { pose proof (wg_gc h1 W1 _ (gc_in h1 W1)) as E; rewrite (gens_gidof _ _ _ HG) in E; congruence. }
  assert (IV : g_id V = SAVE).
  { pose proof (wg_save h1 W1) as E; rewrite (gens_gidof _ _ _ HV) in E; congruence. }
  destruct (g_roots G) as [|x xs] eqn:EG.
  2:{ destruct (root_in h1 (gc h1) G x W1 P1 HG) as (b & Ob & R & C & K); [rewrite EG; left; reflexivity|].
      rewrite IG in K.
      destruct (traverse_root_inv h1 x b I1 Ob (or_introl K) R NM1 Z1) as (h' & E & I' & PG).
      rewrite E; exists false, h'; split; [reflexivity|split; [assumption|]].
      eapply (progress_pre h h1); eauto. }
  destruct (g_roots V) as [|x xs] eqn:EV.
  2:{ destruct (root_in h1 (save h1) V x W1 P1 HV) as (b & Ob & R & C & K); [rewrite EV; left; reflexivity|].
      rewrite IV in K.
      destruct (traverse_root_inv h1 x b I1 Ob (or_intror K) R NM1 Z1) as (h' & E & I' & PG).
      rewrite E; exists false, h'; split; [reflexivity|split; [assumption|]].
      eapply (progress_pre h h1); eauto. }
  destruct (g_non V) as [|x xs] eqn:EW.
  2:{ destruct (non_in h1 (save h1) V x W1 P1 HV) as (b & Ob & R & C & K); [rewrite EW; left; reflexivity|].
      rewrite IV in K.
      destruct (traverse_save h1 x b I1 Ob K R) as (h' & E & I' & PG).
      rewrite E; exists false, h'; split; [reflexivity|split; [assumption|]].
      eapply (progress_pre h h1); eauto. }
  assert (NS1 : forall y, cls h1 y <> Some SAVE).
  { apply (gen_empty h1 SAVE (save h1) V W1 P1 (gen_of_save h1 W1) HV EV EW). }
  destruct (end_cycle_inv h1 I1 NM1 NS1) as (h' & E & I' & O' & N' & X' & C' & F').
  { apply (gen_roots_empty h1 GC (gc h1) G W1 P1 (gen_of_gc h1 W1) HG EG). }
  rewrite E; exists true, h'; split; [reflexivity|split; [assumption|]].
  constructor.
  - congruence.
  - congruence.
  - split; [assumption|]; intro y; rewrite C'.
    destruct (cls h1 y) as [[n| | | |]|]; try (split; discriminate).
    destruct (gidof h1 (next h1)) as [[m| | | |]|]; try (split; discriminate).
    destruct (n <? m); split; discriminate.
  - intros (QN & QC); split; [assumption|]; intros y i; rewrite C'.
    destruct (cls h1 y) as [[n| | | |]|] eqn:CY; try discriminate.
    + rewrite Q5, QN, <- Q4, (wg_new h1 W1); intro Z; inversion Z; eauto.
    + rewrite C1 in CY; exfalso; apply (proj1 (QC y)); assumption.
  - intro y; rewrite F', Q6, C1; tauto.
Qed.

(** ** Freeing an object *)

Record shrunk (h h' : theap) : Prop := {
  sh_nobjs : nobjs h' = nobjs h;
  sh_objs : forall o b', objs h' o = Some b' ->
    exists b, objs h o = Some b /\ o_rc b' = o_rc b /\ o_refs b' = o_refs b;
  sh_roots : forall o b, objs h o = Some b -> o_rc b <> 0 -> objs h' o <> None
}.

Lemma shrunk_refl h : shrunk h h.
Proof. constructor; eauto; congruence. Qed.

Lemma shrunk_trans a b c : shrunk a b -> shrunk b c -> shrunk a c.
Proof.
  intros [A1 A2 A3] [B1 B2 B3]; constructor.
  - congruence.
  - intros o b' E; destruct (B2 _ _ E) as (b1 & E1 & R1 & R2); destruct (A2 _ _ E1) as (b2 & E2 & R3 & R4).
    exists b2; repeat split; congruence.
  - intros o b0 E R; pose proof (A3 _ _ E R) as N; destruct (objs b o) as [b1|] eqn:E1; [|congruence].
    apply (B3 o b1 E1). destruct (A2 _ _ E1) as (b2 & E2 & R1 & R2).
    assert (b2 = b0) by congruence; subst; congruence.
Qed.

Lemma same_objs_shrunk h h' : same_objs h h' -> nobjs h' = nobjs h -> shrunk h h'.
Proof.
  intros S N; constructor; [assumption| |].
  - intros o b' E; specialize (S o); rewrite E in S; destruct (objs h o) as [b|]; [|destruct S].
    destruct S; exists b; auto.
  - intros o b E R; specialize (S o); rewrite E in S; destruct (objs h' o); [discriminate|destruct S].
Qed.

Lemma free_one_inv h :
  INV h -> exists h', free_one h = Some h' /\ INV h' /\ shrunk h h' /\
    (forall y, cls h' y = cls h y) /\ next h' = next h /\ new h' = new h /\
    freel h' = tl (freel h) /\
    (forall o, objs h' o = None -> objs h o = None \/ In o (freel h)).
Proof.
  intros [W P S]; unfold free_one.
  destruct (freel h) as [|o r] eqn:F.
  { exists h; split; [reflexivity|split; [constructor; assumption|]].
    split; [apply shrunk_refl|]. repeat split; auto. }
  destruct (proj1 (wp_free none h P o)) as (b & Ob & Gb); [rewrite F; left; reflexivity|].
  rewrite Ob; eexists; split; [reflexivity|]; set (h' := set_freel _ _).
  pose proof (wp_free_nd none h P) as ND; rewrite F in ND; apply NoDup_cons_iff in ND; destruct ND as (Nr & NDr).
  assert (OO : forall x, x <> o -> objs h' x = objs h x) by (intros; cbn; apply upd_other; assumption).
  assert (ON : objs h' o = None) by (cbn; apply upd_same).
  assert (OX : forall x b0, objs h' x = Some b0 -> x <> o /\ objs h x = Some b0).
  { intros x b0 E; destruct (Nat.eq_dec x o) as [->|NE]; [congruence|rewrite OO in E; auto]. }
  assert (C0 : cls h o = None) by (unfold cls; rewrite Ob; unfold gidof; rewrite Gb; reflexivity).
  assert (CL : forall y, cls h' y = cls h y).
  { intro y; destruct (Nat.eq_dec y o) as [->|NE].
    - rewrite C0; unfold cls; rewrite ON; reflexivity.
    - unfold cls; rewrite OO by assumption; reflexivity. }
  assert (W' : WFG h') by (eapply WFG_same; [exact W|repeat split|reflexivity|apply W]).
  assert (NP : forall g G q, gens h g = Some G ->
     ((exists b0, objs h q = Some b0 /\ canon h (o_gen b0) = g) -> q <> o)).
  { intros g G q HG (b0 & E & C) ->. assert (b0 = b) by congruence; subst b0.
    assert (L : gens h (canon h (o_gen b)) <> None) by congruence.
    unfold canon in L; destruct (mem (o_gen b) (gcs h)) eqn:M; [|contradiction].
    apply mem_in in M; revert Gb; apply (wg_live h W), allg_in; auto. }
  assert (P' : WFP none h').
  { constructor.
    - intros g G q HG _; rewrite (wp_roots none h P g G q HG) by (intros []); split; intros (b0 & E & R & C).
      + exists b0; rewrite OO; [auto|]. eapply NP; eauto.
      + apply OX in E; exists b0; tauto.
    - intros g G q HG _; rewrite (wp_non none h P g G q HG) by (intros []); split; intros (b0 & E & R & C).
      + exists b0; rewrite OO; [auto|]. eapply NP; eauto.
      + apply OX in E; exists b0; tauto.
    - apply (wp_nodup none h P).
    - intro q; change (freel h') with r; split.
      + intro I; assert (NE : q <> o) by (intros ->; contradiction).
        destruct (proj1 (wp_free none h P q)) as (b0 & E0 & G0); [rewrite F; right; assumption|].
        exists b0; rewrite OO; auto.
      + intros (b0 & E0 & G0); apply OX in E0; destruct E0 as (NE & E0).
        assert (I : In q (freel h)) by (apply (wp_free none h P); eauto).
        rewrite F in I; destruct I as [->|I]; [congruence|assumption].
    - intros q b0 E N; apply OX in E; apply (wp_free_rc none h P q); tauto.
    - exact NDr.
    - intros q N; apply (wp_n none h P); destruct (objs h' q) as [b0|] eqn:E; [|congruence].
      apply OX in E; destruct E; congruence.
    - intros q b0 E; apply OX in E; apply (wp_gen none h P q); tauto. }
  assert (EF : forall x y, edge h' x y -> edge h x y).
  { intros x y (b0 & E & I); apply OX in E; exists b0; tauto. }
  assert (EB : forall x y, cls h x <> None -> edge h x y -> edge h' x y).
  { intros x y N (b0 & E & I); exists b0; split; [rewrite OO; [assumption|]|assumption].
    intros ->; contradiction. }
  assert (RB : forall x y, cls h x <> None -> reach h x y -> reach h' x y /\ cls h y <> None).
  { intros x y N R; induction R as [x|x y z R IH E]; [split; [constructor|assumption]|].
    destruct (IH N) as (R' & N'); split; [eapply reach_step; [exact R'|apply EB; assumption]|].
    destruct (cls h y) as [c|] eqn:Cy; [|congruence].
    destruct (s1 h S y z c Cy E) as (d & D & _); congruence. }
  split; [constructor; [assumption|assumption|]|split; [|split; [assumption|split; [reflexivity|split; [reflexivity|split; [reflexivity|]]]]]].
  - constructor.
    + intros x y c C E; rewrite CL in C; destruct (s1 h S x y c C (EF _ _ E)) as (d & D & H).
      exists d; rewrite CL; auto.
    + intros x y n C L E; rewrite !CL in *.
      exact (s2 h S x y n C L (EF _ _ E)).
    + intros g G n y HG IG L HY; rewrite !CL in HY.
      destruct (s3 h S g G n y HG IG L HY) as (q & l & E1 & E2).
      exists q, l; split; [assumption|]. apply RB; [|assumption].
      destruct (root_in h g G q W P HG) as (b0 & _ & _ & _ & K); [rewrite E1; left; reflexivity|congruence].
  - constructor.
    + reflexivity.
    + intros q b' E; apply OX in E; exists b'; tauto.
    + intros q b0 E R N; destruct (Nat.eq_dec q o) as [->|NE].
      * assert (b0 = b) by congruence; subst b0; apply R, (wp_free_rc none h P _ _ Ob Gb).
      * rewrite OO in N by assumption; congruence.
  - intros q N; destruct (Nat.eq_dec q o) as [->|NE]; [right; left; reflexivity|].
    rewrite OO in N by assumption; auto.
Qed.

(** ** [incr_gc] *)

Lemma quiet_same h h' :
  (forall y, cls h' y = cls h y) -> next h' = next h -> new h' = new h -> quiet h -> quiet h'.
Proof. intros C N M (Q1 & Q2); split; [congruence|intro y; rewrite C; apply Q2]. Qed.

Lemma settled_same h h' :
  (forall y, cls h' y = cls h y) -> next h' = next h -> new h' = new h -> settled h -> settled h'.
Proof. intros C N M (Q1 & Q2); split; [congruence|intros y i; rewrite C; apply Q2]. Qed.

(** What remains to be visited. *)
Definition work (h : theap) : nat := length (filter (fun o => busy (cls h o)) (seq 0 (nobjs h))).

Lemma filter_le (p q : nat -> bool) l :
  (forall y, q y = true -> p y = true) -> length (filter q l) <= length (filter p l).
Proof.
  intro H; induction l as [|a l IH]; cbn; [lia|].
  destruct (q a) eqn:Q; [rewrite (H _ Q); cbn; lia|destruct (p a); cbn; lia].
Qed.

Lemma filter_lt (p q : nat -> bool) l x :
  (forall y, q y = true -> p y = true) -> In x l -> p x = true -> q x = false ->
  length (filter q l) < length (filter p l).
Proof.
  intros H I Px Qx; induction l as [|a l IH]; [destruct I|]; cbn.
  destruct I as [->|I].
  - rewrite Px, Qx; cbn; pose proof (filter_le p q l H); lia.
  - specialize (IH I); destruct (q a) eqn:Q; [rewrite (H _ Q); cbn; lia|destruct (p a); cbn; lia].
Qed.

Lemma work_le h : work h <= nobjs h.
Proof.
  unfold work; rewrite <- (seq_length (nobjs h) 0) at 2.
  induction (seq 0 (nobjs h)) as [|a l IH]; cbn; [lia|destruct (busy (cls h a)); cbn; lia].
Qed.

Lemma progress_work h h' : WFP none h -> progress h h' -> work h' < work h.
Proof.
  intros P [A1 A2 A3 A4 A5 A6]; destruct A5 as (x & B1 & B2 & B3); unfold work; rewrite A2.
  eapply (filter_lt (fun o => busy (cls h o)) (fun o => busy (cls h' o)) _ x); auto.
  apply in_seq; pose proof (wp_n none h P x B1); lia.
Qed.

Lemma work_same h h' : (forall y, cls h' y = cls h y) -> nobjs h' = nobjs h -> work h' = work h.
Proof.
  intros C N; unfold work; rewrite N; f_equal; apply filter_ext; intro; rewrite C; reflexivity.
Qed.

Lemma incr_gc_inv h :
  INV h -> exists f h', incr_gc h = Some (f, h') /\ INV h' /\ shrunk h h' /\
    (if f : bool then quiet h' /\ (quiet h -> settled h')
     else work h' < work h /\ (quiet h -> quiet h')).
Proof.
  intro I; unfold incr_gc.
  destruct (free_one_inv h I) as (h1 & E1 & I1 & S1 & C1 & N1 & M1 & F1 & _); rewrite E1.
  destruct (free_one_inv h1 I1) as (h2 & E2 & I2 & S2 & C2 & N2 & M2 & F2 & _); rewrite E2.
  destruct (gc_step_inv h2 I2) as (f & h3 & E3 & I3 & R3).
  assert (Q2 : quiet h -> quiet h2).
  { intro Q; apply (quiet_same h1 h2 C2 N2 M2), (quiet_same h h1 C1 N1 M1), Q. }
  assert (W2 : work h2 = work h).
  { rewrite (work_same h1 h2 C2 (sh_nobjs _ _ S2)); apply (work_same h h1 C1 (sh_nobjs _ _ S1)). }
  exists f, h3; split; [exact E3|split; [assumption|]].
  destruct f.
  - split.
    + eapply shrunk_trans; [exact S1|]; eapply shrunk_trans; [exact S2|].
      apply same_objs_shrunk; [|apply R3]. intro o; rewrite (fi_objs _ _ R3); destruct (objs h2 o); auto.
    + split; [apply R3|intro Q; apply R3, Q2, Q].
  - split.
    + eapply shrunk_trans; [exact S1|]; eapply shrunk_trans; [exact S2|].
      apply same_objs_shrunk; apply R3.
    + split; [rewrite <- W2; apply progress_work; [apply I2|assumption]|intro Q; apply R3, Q2, Q].
Qed.

(** ** A cycle terminates *)

Lemma run_cycle_inv fuel : forall h,
  INV h -> work h < fuel -> exists h', run_cycle fuel h = Some h' /\ INV h' /\ shrunk h h' /\
    quiet h' /\ (quiet h -> settled h').
Proof.
  induction fuel as [|fuel IH]; intros h I L; [lia|]; cbn.
  destruct (incr_gc_inv h I) as (f & h1 & E1 & I1 & S1 & R1); rewrite E1; destruct f.
  - exists h1; destruct R1; auto.
  - destruct R1 as (R1 & Q1). destruct (IH h1 I1) as (h2 & E2 & I2 & S2 & Q2 & T2); [lia|].
    exists h2; split; [assumption|split; [assumption|split; [eapply shrunk_trans; eassumption|auto]]].
Qed.

(** ** Emptying the free list *)

Lemma free_all_inv fuel : forall h,
  INV h -> length (freel h) <= fuel -> exists h', free_all fuel h = Some h' /\ INV h' /\ shrunk h h' /\
    (forall y, cls h' y = cls h y) /\ next h' = next h /\ new h' = new h /\ freel h' = [] /\
    (forall o, objs h' o = None -> objs h o = None \/ In o (freel h)).
Proof.
  induction fuel as [|fuel IH]; intros h I L.
  - assert (F : freel h = []) by (destruct (freel h); [reflexivity|cbn in L; lia]).
    unfold free_all; rewrite F; exists h; split; [reflexivity|split; [assumption|]].
    split; [apply shrunk_refl|]. repeat split; auto.
  - destruct (freel h) as [|o r] eqn:F.
    + unfold free_all; rewrite F; exists h; split; [reflexivity|split; [assumption|]].
      split; [apply shrunk_refl|]. repeat split; auto.
    + cbn [free_all]; rewrite F.
      destruct (free_one_inv h I) as (h1 & E1 & I1 & S1 & C1 & N1 & M1 & F1 & O1); rewrite E1.
      rewrite F in F1; cbn in F1.
      destruct (IH h1 I1) as (h2 & E2 & I2 & S2 & C2 & N2 & M2 & F2 & O2).
      { rewrite F1; cbn in L; lia. }
      exists h2; split; [assumption|split; [assumption|split; [eapply shrunk_trans; eassumption|]]].
      split; [intro; rewrite C2; apply C1|]. repeat (split; [congruence|]).
      intros q N; destruct (O2 q N) as [Q|Q].
      * rewrite F in O1; apply O1 in Q; assumption.
      * right; rewrite F1 in Q; right; assumption.
Qed.

Lemma freel_bound h : WFP none h -> length (freel h) <= nobjs h.
Proof.
  intro P; rewrite <- (seq_length (nobjs h) 0).
  apply NoDup_incl_length; [apply (wp_free_nd none h P)|].
  intros o I; apply in_seq; apply (wp_free none h P) in I; destruct I as (b & E & _).
  assert (L : o < nobjs h) by (apply (wp_n none h P); congruence); lia.
Qed.

(** ** A full collection *)

(** Once settled, a cycle finishes at once and finds no garbage. *)
Lemma settled_cycle fuel h :
  INV h -> settled h -> freel h = [] ->
  exists h', run_cycle (S fuel) h = Some h' /\ INV h' /\ shrunk h h' /\ settled h' /\ freel h' = [].
Proof.
  intros I Q F; cbn [run_cycle]; unfold incr_gc.
  assert (E : free_one h = Some h) by (unfold free_one; rewrite F; reflexivity).
  rewrite !E.
  destruct (gc_step_inv h I) as (f & h' & E' & I' & R); rewrite E'; destruct f.
  - exists h'; split; [reflexivity|split; [assumption|split; [|split]]].
    + apply same_objs_shrunk; [|apply R]. intro o; rewrite (fi_objs _ _ R); destruct (objs h o); auto.
    + apply R, settled_quiet, Q.
    + destruct (freel h') as [|y l] eqn:F'; [reflexivity|exfalso].
      assert (X : In y (freel h')) by (rewrite F'; left; reflexivity).
      apply (fi_free _ _ R) in X; rewrite F in X; destruct X as [[]|X].
      destruct (proj2 Q _ _ X); discriminate.
  - exfalso; destruct (pg_dec _ _ R) as (x & _ & B & _).
    destruct (cls h x) as [i|] eqn:C; [|discriminate].
    destruct (proj2 Q _ _ C) as (n & ->); discriminate.
Qed.

Lemma gc_rounds_done fuel h :
  INV h -> settled h -> freel h = [] ->
  exists h', gc_rounds (S fuel) h = Some h' /\ INV h' /\ shrunk h h' /\ settled h' /\ freel h' = [].
Proof.
  intros I Q F; cbn [gc_rounds].
  destruct (settled_cycle fuel h I Q F) as (h1 & E1 & I1 & S1 & Q1 & F1).
  rewrite E1; cbn [free_all]; rewrite F1; exists h1; auto.
Qed.

Lemma gc_rounds_inv fuel h :
  INV h -> quiet h -> nobjs h < fuel ->
  exists h', gc_rounds (S fuel) h = Some h' /\ INV h' /\ shrunk h h' /\ settled h' /\ freel h' = [].
Proof.
  intros I Q L; cbn [gc_rounds].
  destruct (run_cycle_inv (S fuel) h I) as (h1 & E1 & I1 & S1 & Q1 & T1).
  { pose proof (work_le h); lia. }
  rewrite E1.
  destruct (free_all_inv (S fuel) h1 I1) as (h2 & E2 & I2 & S2 & C2 & N2 & M2 & F2 & O2).
  { pose proof (freel_bound h1 (inv_p _ I1)); rewrite (sh_nobjs _ _ S1) in *; lia. }
  rewrite E2.
  assert (Z2 : settled h2) by (apply (settled_same h1 h2 C2 N2 M2), T1, Q).
  assert (S02 : shrunk h h2) by (eapply shrunk_trans; eassumption).
  destruct (freel h1) eqn:F1; [exists h2; auto|].
  destruct fuel as [|fuel]; [lia|].
  destruct (gc_rounds_done fuel h2 I2 Z2 F2) as (h3 & E3 & I3 & S3 & Q3 & F3).
  exists h3; split; [exact E3|split; [assumption|split; [eapply shrunk_trans; eassumption|auto]]].
Qed.

Lemma full_gc_inv fuel h :
  INV h -> nobjs h + 2 <= fuel ->
  exists h', full_gc fuel h = Some h' /\ INV h' /\ shrunk h h' /\ settled h' /\ freel h' = [].
Proof.
  intros I L; unfold full_gc; destruct fuel as [|fuel]; [lia|].
  destruct (run_cycle_inv (S fuel) h I) as (h1 & E1 & I1 & S1 & Q1 & _).
  { pose proof (work_le h); lia. }
  rewrite E1.
  destruct (gc_rounds_inv fuel h1 I1 Q1) as (h2 & E2 & I2 & S2 & Q2 & F2).
  { rewrite (sh_nobjs _ _ S1); lia. }
  exists h2; split; [exact E2|split; [assumption|split; [eapply shrunk_trans; eassumption|auto]]].
Qed.

(** In a settled heap with an empty free list, everything that is left is
    reachable from a retained object. *)
Lemma settled_reachable h :
  INV h -> settled h -> freel h = [] -> forall o, objs h o <> None ->
  exists r b, objs h r = Some b /\ o_rc b <> 0 /\ reach h r o.
Proof.
  intros [W P S] (QN & QC) F o N.
  destruct (cls h o) as [i|] eqn:C.
  - destruct (QC _ _ C) as (n & ->).
    destruct (cls_inv _ _ _ C) as (b & Ob & Gb).
    destruct (gidof_gens _ _ _ Gb) as (G & HG & IG).
    destruct (s3 h S (o_gen b) G n o HG IG (lt_next_new h n W QN) (or_introl C)) as (r & l & E & R).
    destruct (root_in h _ G r W P HG) as (b0 & Ob0 & R0 & _); [rewrite E; left; reflexivity|].
    exists r, b0; auto.
  - exfalso; destruct (objs h o) as [b|] eqn:Ob; [|congruence].
    assert (I : In o (freel h)).
    { apply (wp_free none h P); exists b; split; [assumption|].
      unfold cls in C; rewrite Ob in C; unfold gidof in C; destruct (gens h (o_gen b)); congruence. }
    rewrite F in I; destruct I.
Qed.
