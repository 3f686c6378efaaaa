(** * The type heap keeps what is held (C27) and reclaims the rest (C28). *)
From Coq Require Import List Arith Bool Lia Sorted Permutation.
Import ListNotations.
From Verif Require Import TypeHeapModel TypeHeapInv TypeHeapSem TypeHeapStep TypeHeapCycle
  TypeHeapGc TypeHeapOps TypeHeapStore TypeHeapSpec.

(** ** Running a history *)

Definition run_op (h : theap) (op : ty_op) : option theap :=
  match op with
  | New => match alloc h with Some (_, h') => Some h' | None => None end
  | Retain t => retain h t
  | Release t => release h t
  | Refer s d => store h s d
  | Collect f => full_gc f h
  end.

Fixpoint run (h : theap) (l : list ty_op) : option theap :=
  match l with
  | [] => Some h
  | op :: r => match run_op h op with Some h' => run h' r | None => None end
  end.

Lemma run_app h l r :
  run h (l ++ r) = match run h l with Some h' => run h' r | None => None end.
Proof.
  revert h; induction l as [|op l IH]; intro h; cbn; [reflexivity|].
  destruct (run_op h op); auto.
Qed.

(** ** Agreement between the heap and the client's view *)

Record agree (w : client) (h : theap) : Prop := {
  ag_inv : INV h;
  ag_n : nobjs h = t_n w;
  ag_objs : forall o b, objs h o = Some b -> o_rc b = t_rc w o /\ o_refs b = t_refs w o;
  ag_roots : forall o, 0 < t_rc w o -> objs h o <> None
}.

Lemma held_cls w h o : agree w h -> held w o -> cls h o <> None.
Proof.
  intros [[W P Sm] N A R]; induction 1 as [o H|o p H IH I].
  - destruct (objs h o) as [b|] eqn:Ob; [|exfalso; apply (R o H Ob)].
    unfold cls; rewrite Ob; unfold gidof; destruct (gens h (o_gen b)) eqn:E; [discriminate|].
    pose proof (wp_free_rc none h P o b Ob E); destruct (A o b Ob); lia.
  - destruct (cls h o) as [c|] eqn:C; [|congruence].
    destruct (s1 h Sm o p c C) as (d & D & _); [|congruence].
    unfold cls in C; destruct (objs h o) as [b|] eqn:Ob; [|discriminate].
    exists b; destruct (A o b Ob) as (_ & E); rewrite E; auto.
Qed.

Lemma held_live w h o : agree w h -> held w o ->
  exists b, objs h o = Some b /\ o_rc b = t_rc w o /\ o_refs b = t_refs w o.
Proof.
  intros A H; pose proof (held_cls w h o A H) as C.
  unfold cls in C; destruct (objs h o) as [b|] eqn:Ob; [|congruence].
  exists b; split; [reflexivity|apply (ag_objs w h A), Ob].
Qed.

Lemma reach_held w h r o : agree w h -> reach h r o -> held w r -> held w o.
Proof.
  intros A H; induction H as [x|x y z H IH (b & E & I)]; [auto|].
  intro T; apply (held_ref w y); [auto|]. destruct (ag_objs w h A _ _ E) as (_ & <-); assumption.
Qed.

Lemma agree_shrunk w h h' : agree w h -> INV h' -> shrunk h h' -> agree w h'.
Proof.
  intros [I N A R] I' [S1 S2 S3]; constructor.
  - assumption.
  - congruence.
  - intros o b' E; destruct (S2 o b' E) as (b & Ob & E1 & E2); destruct (A o b Ob); split; congruence.
  - intros o H; pose proof (R o H) as L; destruct (objs h o) as [b|] eqn:Ob; [|congruence].
    apply (S3 o b Ob); destruct (A o b Ob); lia.
Qed.

Lemma agree_new : agree no_types new_heap.
Proof.
  constructor; [apply new_heap_inv|reflexivity|discriminate|cbn; intros; lia].
Qed.

Lemma agree_step w op w' h :
  agree w h -> ty_step w op w' ->
  exists h', run_op h op = Some h' /\ agree w' h' /\
    (forall o, o < t_n w -> objs h o = None -> objs h' o = None) /\ t_n w <= t_n w'.
Proof.
  intros A St; pose proof (ag_inv _ _ A) as I; destruct St as [|o H| |o H| |s d Hs Hd|f Hf]; cbn [run_op].
  - destruct (alloc_inv h I) as (h1 & h' & E & I' & S1 & O' & N').
    rewrite E; exists h'; split; [reflexivity|].
    assert (A1 : forall o b, objs h1 o = Some b -> o_rc b = t_rc w o /\ o_refs b = t_refs w o).
    { intros o b Ob; destruct (sh_objs _ _ S1 o b Ob) as (b0 & Ob0 & -> & ->); apply (ag_objs _ _ A), Ob0. }
    rewrite (ag_n _ _ A) in *. split; [constructor|split].
    + assumption.
    + exact N'.
    + intros o b Ob; rewrite O' in Ob; cbn [t_rc t_refs]; unfold upd in Ob; unfold put.
      destruct (o =? t_n w); [inversion Ob; auto|auto].
    + intros o; cbn [t_rc]; rewrite O'; unfold upd, put; destruct (o =? t_n w); [discriminate|].
      intro H; pose proof (ag_roots _ _ A o H) as L; destruct (objs h o) as [b|] eqn:Ob; [|congruence].
      apply (sh_roots _ _ S1 o b Ob); destruct (ag_objs _ _ A o b Ob); lia.
    + intros o L Ob; rewrite O'; unfold upd; destruct (o =? t_n w) eqn:T; [apply Nat.eqb_eq in T; lia|].
      destruct (objs h1 o) as [b|] eqn:E1; [|reflexivity].
      destruct (sh_objs _ _ S1 o b E1) as (b0 & Ob0 & _); congruence.
    + cbn; lia.
  - destruct (retain_inv h o I (held_cls _ _ _ A H)) as (b & h' & b' & Ob & E & I' & N' & O' & R1 & R2).
    rewrite E; exists h'; split; [reflexivity|]; destruct (ag_objs _ _ A o b Ob) as (Q1 & Q2).
    split; [constructor|split].
    + assumption.
    + rewrite N'; apply A.
    + intros x bx; rewrite O'; cbn [t_rc t_refs]; unfold upd, put; destruct (x =? o) eqn:T.
      * apply Nat.eqb_eq in T; subst x; intro Z; inversion Z; subst; split; congruence.
      * apply A.
    + intros x; rewrite O'; cbn [t_rc]; unfold upd, put; destruct (x =? o); [discriminate|apply A].
    + intros x _ L; rewrite O'; unfold upd; destruct (x =? o) eqn:T; [|assumption].
      apply Nat.eqb_eq in T; congruence.
    + cbn; lia.
  - exists h; split; [reflexivity|split; [assumption|split; [auto|lia]]].
  - pose proof (ag_roots _ _ A o H) as L; destruct (objs h o) as [b|] eqn:Ob; [|congruence].
    destruct (ag_objs _ _ A o b Ob) as (Q1 & Q2).
    destruct (release_inv h o b I Ob) as (h' & b' & E & I' & N' & O' & R1 & R2); [lia|].
    rewrite E; exists h'; split; [reflexivity|]; split; [constructor|split].
    + assumption.
    + rewrite N'; apply A.
    + intros x bx; rewrite O'; cbn [t_rc t_refs]; unfold upd, put; destruct (x =? o) eqn:T.
      * apply Nat.eqb_eq in T; subst x; intro Z; inversion Z; subst; split; congruence.
      * apply A.
    + intros x; rewrite O'; cbn [t_rc]; unfold upd, put; destruct (x =? o); [discriminate|apply A].
    + intros x _ Lx; rewrite O'; unfold upd; destruct (x =? o) eqn:T; [|assumption].
      apply Nat.eqb_eq in T; congruence.
    + cbn; lia.
  - exists h; split; [reflexivity|split; [assumption|split; [auto|lia]]].
  - destruct (store_inv h s d I (held_cls _ _ _ A Hs) (held_cls _ _ _ A Hd)) as (b & h' & Ob & E & I' & N' & O').
    rewrite E; exists h'; split; [reflexivity|]; split; [constructor|split].
    + assumption.
    + rewrite N'; apply A.
    + intros x bx Ox; specialize (O' x); rewrite Ox in O'; destruct (objs h x) as [b0|] eqn:Ob0; [|destruct O'].
      destruct O' as (Z1 & Z2); destruct (ag_objs _ _ A x b0 Ob0) as (Q1 & Q2); cbn [t_rc t_refs]; unfold put.
      destruct (x =? s) eqn:T; [apply Nat.eqb_eq in T; subst x|]; split; congruence.
    + intros x H; specialize (O' x); pose proof (ag_roots _ _ A x H) as L.
      destruct (objs h x); [|congruence]. destruct (objs h' x); [discriminate|destruct O'].
    + intros x _ L; specialize (O' x); rewrite L in O'; destruct (objs h' x); [destruct O'|reflexivity].
    + cbn; lia.
  - destruct (full_gc_inv f h I) as (h' & E & I' & S1 & _); [rewrite (ag_n _ _ A); assumption|].
    exists h'; split; [assumption|split; [eapply agree_shrunk; eassumption|split; [|lia]]].
    intros o _ L; destruct (objs h' o) as [b|] eqn:E1; [|reflexivity].
    destruct (sh_objs _ _ S1 o b E1) as (b0 & Ob0 & _); congruence.
Qed.

Lemma agree_history l w : history l w -> exists h, run new_heap l = Some h /\ agree w h.
Proof.
  induction 1 as [|l op w w' H (h & E & A) St].
  - exists new_heap; split; [reflexivity|apply agree_new].
  - destruct (agree_step w op w' h A St) as (h' & E' & A' & _).
    exists h'; split; [|assumption]. rewrite run_app, E; cbn [run]; rewrite E'; reflexivity.
Qed.

(** ** C27 *)

(** Every history a client may perform runs to completion (no freed type or
    generation is ever touched, no assertion fails, every loop ends), and at
    its end every type the client can get to from one it retains has not been
    freed, and has the reference count and the references the client expects.
    As every prefix of a history is a history, this holds at every point. *)
Theorem held_types_survive l w :
  history l w -> exists h, run new_heap l = Some h /\
    forall o, held w o ->
      exists b, objs h o = Some b /\ o_rc b = t_rc w o /\ o_refs b = t_refs w o.
Proof.
  intro H; destruct (agree_history l w H) as (h & E & A); exists h; split; [assumption|].
  intros o Ho; apply (held_live w h o A Ho).
Qed.

(** A new type is a type not used before: the heap has not handed it out. *)
Theorem new_type_fresh l w h :
  history l w -> run new_heap l = Some h ->
  exists h', alloc h = Some (t_n w, h') /\ objs h (t_n w) = None /\ objs h' (t_n w) <> None.
Proof.
  intros H E; destruct (agree_history l w H) as (h0 & E0 & A); assert (h0 = h) by congruence; subst h0.
  destruct (alloc_inv h (ag_inv _ _ A)) as (h1 & h' & E1 & I' & S1 & O' & N').
  rewrite (ag_n _ _ A) in *; exists h'; split; [assumption|split].
  - destruct (objs h (t_n w)) eqn:Ob; [|reflexivity].
    assert (L : t_n w < nobjs h) by (apply (wp_n none h (inv_p _ (ag_inv _ _ A))); congruence).
    rewrite (ag_n _ _ A) in L; lia.
  - rewrite O'; unfold upd; rewrite Nat.eqb_refl; discriminate.
Qed.

(** ** C28 *)

Lemma agree_settled w h : agree w h -> settled h -> freel h = [] ->
  forall o, objs h o <> None <-> held w o.
Proof.
  intros A Q F o; split.
  - intro L; destruct (settled_reachable h (ag_inv _ _ A) Q F o L) as (r & b & Ob & R & H).
    apply (reach_held w h r o A H), held_root. destruct (ag_objs _ _ A r b Ob); lia.
  - intro H; destruct (held_live w h o A H) as (b & E & _); congruence.
Qed.

(** After a full collection the types that have not been freed are exactly
    those held. *)
Theorem full_collection_exact l w f :
  history (l ++ [Collect f]) w ->
  exists h, run new_heap (l ++ [Collect f]) = Some h /\
    forall o, objs h o <> None <-> held w o.
Proof.
  intro H; inversion H as [E|l0 op w0 w1 H0 St E]; [destruct l; discriminate|].
  apply app_inj_tail in E; destruct E; subst l0 op w1; inversion St; subst.
  destruct (agree_history l w H0) as (h & E & A).
  destruct (full_gc_inv f h (ag_inv _ _ A)) as (h' & E' & I' & S1 & Q & F).
  { rewrite (ag_n _ _ A); assumption. }
  exists h'; split.
  - rewrite run_app, E; cbn; rewrite E'; reflexivity.
  - apply agree_settled; [eapply agree_shrunk; eassumption|assumption|assumption].
Qed.

(** A type that was freed is never there again: freeing it a second time
    would have stopped the run. *)
Theorem freed_stays_freed l1 l2 w1 w2 h1 h2 o :
  history l1 w1 -> history (l1 ++ l2) w2 ->
  run new_heap l1 = Some h1 -> run new_heap (l1 ++ l2) = Some h2 ->
  o < t_n w1 -> objs h1 o = None -> objs h2 o = None.
Proof.
  revert w2 h2; induction l2 as [|op l2 IH] using rev_ind; intros w2 h2 H1 H2 E1 E2 L N.
  - rewrite List.app_nil_r in E2; congruence.
  - rewrite app_assoc in H2, E2; inversion H2 as [E|l0 op0 w0 wx H0 St E]; [destruct (l1 ++ l2); discriminate|].
    apply app_inj_tail in E; destruct E; subst l0 op0 wx.
    rewrite run_app in E2; destruct (agree_history _ _ H0) as (h0 & E0 & A0); rewrite E0 in E2; cbn in E2.
    destruct (agree_step w0 op w2 h0 A0 St) as (h' & E' & _ & K & _); rewrite E' in E2.
    inversion E2; subst h2. apply K; [|eapply IH; eassumption].
    assert (G : forall l w w', history l w -> forall l', history (l ++ l') w' -> t_n w <= t_n w').
    { clear. intros l w w' H l'; revert w'; induction l' as [|op l' IH] using rev_ind; intros w' H'.
      - rewrite List.app_nil_r in H'.
        destruct (agree_history _ _ H) as (h & E & A); destruct (agree_history _ _ H') as (h' & E' & A').
        rewrite <- (ag_n _ _ A), <- (ag_n _ _ A'); assert (h = h') by congruence; subst; lia.
      - rewrite app_assoc in H'; inversion H' as [E|l0 op0 w0 wx H0 St E]; [destruct (l ++ l'); discriminate|].
        apply app_inj_tail in E; destruct E; subst l0 op0 wx.
        specialize (IH _ H0); destruct (agree_history _ _ H0) as (h0 & _ & A0).
        destruct (agree_step _ _ _ _ A0 St) as (_ & _ & _ & _ & Q); lia. }
    specialize (G l1 w1 w0 H1 l2 H0); lia.
Qed.

Lemma free_gens_all l : forall gs, NoDup l -> (forall g, In g l -> gs g <> None) ->
  exists gs', free_gens gs l = Some gs' /\
    forall g, gs' g = if mem g l then None else gs g.
Proof.
  induction l as [|a l IH]; intros gs ND L; cbn [free_gens].
  - exists gs; split; reflexivity.
  - apply NoDup_cons_iff in ND; destruct ND as (Na & ND).
    destruct (gs a) as [G|] eqn:E; [|exfalso; apply (L a); [left; reflexivity|assumption]].
    destruct (IH (upd gs a None) ND) as (gs' & E' & H').
    { intros g I; unfold upd; destruct (g =? a) eqn:T; [apply Nat.eqb_eq in T; congruence|].
      apply L; right; assumption. }
    exists gs'; split; [assumption|]; intro g; rewrite H'; unfold upd, mem; cbn [existsb].
    destruct (g =? a); cbn [orb]; destruct (existsb _ l); reflexivity.
Qed.

(** Freeing the heap frees every generation, and every type but those still
    held: with nothing retained, everything. *)
Theorem free_heap_exact l w f :
  history l w -> t_n w + 2 <= f ->
  exists h h', run new_heap l = Some h /\ free_heap f h = Some h' /\
    (forall g, gens h' g = None) /\
    (forall o, objs h' o <> None <-> held w o).
Proof.
  intros H L; destruct (agree_history l w H) as (h & E & A).
  destruct (full_gc_inv f h (ag_inv _ _ A)) as (h1 & E1 & I1 & S1 & Q & F).
  { rewrite (ag_n _ _ A); assumption. }
  pose proof (inv_g _ I1) as W.
  assert (IA : forall g, In g (olds h1 ++ [mark h1] ++ gcs h1 ++ [save h1; new h1]) <-> In g (allg h1)).
  { intro g; unfold allg; cbn [In app]; rewrite !in_app_iff; cbn [In app]; rewrite !in_app_iff; cbn [In]; tauto. }
  destruct (free_gens_all (olds h1 ++ [mark h1] ++ gcs h1 ++ [save h1; new h1]) (gens h1)) as (gs & E2 & H2).
  { apply (Permutation_NoDup (l := allg h1)); [|apply W]. unfold allg.
    rewrite !app_assoc; symmetry.
    change (mark h1 :: save h1 :: new h1 :: olds h1 ++ gcs h1)
      with ([mark h1; save h1; new h1] ++ (olds h1 ++ gcs h1)).
    rewrite Permutation_app_comm.
    rewrite (Permutation_app_comm (olds h1) [mark h1]).
    cbn [app]. apply perm_trans with (save h1 :: new h1 :: mark h1 :: olds h1 ++ gcs h1).
    { reflexivity. }
    apply perm_trans with (save h1 :: mark h1 :: new h1 :: olds h1 ++ gcs h1).
    { apply perm_skip, perm_swap. }
    apply perm_swap. }
  { intros g Ig; apply (wg_live h1 W), IA, Ig. }
  exists h, (set_gens h1 gs); split; [assumption|split].
  - unfold free_heap; rewrite E1, E2; reflexivity.
  - split.
    + intro g; cbn [gens set_gens]; rewrite H2; destruct (mem g _) eqn:M; [reflexivity|].
      destruct (gens h1 g) as [G|] eqn:HG; [exfalso|reflexivity].
      assert (T : In g (allg h1)) by (apply (wg_live h1 W); congruence).
      apply IA in T; apply mem_in in T; congruence.
    + cbn [objs set_gens]; apply agree_settled; [eapply agree_shrunk; eassumption|assumption|assumption].
Qed.

Corollary free_heap_frees_all l w f :
  history l w -> (forall o, t_rc w o = 0) -> t_n w + 2 <= f ->
  exists h h', run new_heap l = Some h /\ free_heap f h = Some h' /\
    (forall g, gens h' g = None) /\ (forall o, objs h' o = None).
Proof.
  intros H Z L; destruct (free_heap_exact l w f H L) as (h & h' & E & E' & G & O).
  exists h, h'; split; [assumption|split; [assumption|split; [assumption|]]].
  intro o; destruct (objs h' o) eqn:Q; [exfalso|reflexivity].
  assert (T : held w o) by (apply O; congruence).
  clear - T Z; induction T as [o H|]; [rewrite Z in H; lia|assumption].
Qed.

(** ** A history that exercises the statements

    Three types: 0 and 1 refer to each other, 2 refers to 1.  Types 1 and 0
    are released; then 2 alone holds all three.  Five more types are made and
    dropped so that the incremental collector gets to run.  After 2 is
    released too, nothing is held. *)
Definition demo : list ty_op :=
  [New; New; New; Refer 0 1; Refer 1 0; Refer 2 1; Release (Some 0); Release (Some 1);
   New; Release (Some 3); New; Release (Some 4); New; Release (Some 5); Retain (Some 0); Release (Some 0)].

Lemma demo_history : exists w, history demo w /\ t_n w = 6 /\ t_rc w 2 = 1 /\ held w 0 /\ held w 1 /\
  (forall o, 0 < t_rc w o -> o = 2).
Proof.
  assert (R : forall w o, t_rc w o = 1 -> held w o) by (intros w o H; apply held_root; lia).
  assert (P : forall w o, t_rc w o = 1 -> 0 < t_rc w o) by (intros w o H; lia).
  assert (X : forall l op w w', history l w -> ty_step w op w' -> history (l ++ [op]) w') by
    (intros; econstructor; eassumption).
  pose proof hist_nil as H1; unfold no_types in H1.
  eapply X in H1; [|apply st_new]; cbn in H1.
  eapply X in H1; [|apply st_new]; cbn in H1.
  eapply X in H1; [|apply st_new]; cbn in H1.
  eapply X in H1; [|apply (st_refer _ 0 1); apply R; reflexivity]; cbn in H1.
  eapply X in H1; [|apply (st_refer _ 1 0); apply R; reflexivity]; cbn in H1.
  eapply X in H1; [|apply (st_refer _ 2 1); apply R; reflexivity]; cbn in H1.
  eapply X in H1; [|apply (st_release _ 0); apply P; reflexivity]; cbn in H1.
  eapply X in H1; [|apply (st_release _ 1); apply P; reflexivity]; cbn in H1.
  eapply X in H1; [|apply st_new]; cbn in H1.
  eapply X in H1; [|apply (st_release _ 3); apply P; reflexivity]; cbn in H1.
  eapply X in H1; [|apply st_new]; cbn in H1.
  eapply X in H1; [|apply (st_release _ 4); apply P; reflexivity]; cbn in H1.
  eapply X in H1; [|apply st_new]; cbn in H1.
  eapply X in H1; [|apply (st_release _ 5); apply P; reflexivity]; cbn in H1.
  eapply X in H1; [|apply (st_retain _ 0); apply (held_ref _ 1); [apply (held_ref _ 2); [apply R; reflexivity|left; reflexivity]|left; reflexivity]]; cbn in H1.
  eapply X in H1; [|apply (st_release _ 0); apply P; reflexivity]; cbn in H1.
  eexists; split; [exact H1|].
  split; [reflexivity|split; [reflexivity|split; [|split]]].
  - apply (held_ref _ 1); [apply (held_ref _ 2); [apply R; reflexivity|left; reflexivity]|left; reflexivity].
  - apply (held_ref _ 2); [apply R; reflexivity|left; reflexivity].
  - intros o; do 6 (destruct o as [|o]; [vm_compute; lia|]); vm_compute; lia.
Qed.

(** The incremental collector alone frees type 3 after a few more
    allocations, and keeps the cycle 0, 1 that only 2 holds. *)
Example demo_run :
  match run new_heap (demo ++ [New; New; New; New; New; New]) with
  | Some h => map (fun o => match objs h o with Some b => Some (o_rc b, o_refs b) | None => None end) (seq 0 4)
  | None => []
  end = [Some (0, [1]); Some (0, [0]); Some (1, [1]); None].
Proof. vm_compute. reflexivity. Qed.

Example demo_collect :
  match run new_heap (demo ++ [Collect 8]) with
  | Some h => map (fun o => match objs h o with Some b => true | None => false end) (seq 0 6)
  | None => []
  end = [true; true; true; false; false; false].
Proof. vm_compute. reflexivity. Qed.

Example demo_free :
  match run new_heap (demo ++ [Release (Some 2)]) with
  | Some h => match free_heap 8 h with
              | Some h' => (map (fun o => match objs h' o with Some _ => true | None => false end) (seq 0 6),
                            map (fun g => match gens h' g with Some _ => true | None => false end) (seq 0 (ngens h')))
              | None => ([], [])
              end
  | None => ([], [])
  end = (repeat false 6, repeat false 15).
Proof. vm_compute. reflexivity. Qed.
