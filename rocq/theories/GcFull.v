(** * FbleValueFullGc: termination (C13) and how complete it is (C14). *)

From Coq Require Import Arith List Bool Lia.
From Verif Require Import GcModel GcInv GcStep GcAlloc GcClient GcAcct GcPop GcProps.
Import ListNotations.

(** GC objects the current collection has not traversed yet. *)
Definition untraversed (h : heap) (x : nat) : bool :=
  match mem h x with
  | Some ob => match oloc ob with LGc g => negb (g =? g_gen (gc h)) | LStack _ _ => false end
  | None => false
  end.
Definition cnt (h : heap) : nat := length (filter (untraversed h) (seq 0 (fresh h))).

(** Frames the collector has yet to visit. *)
Definition left_ (h : heap) : nat :=
  match g_next (gc h) with None => 0 | Some n => S (top h - n) end.

Lemma filter_le {A} (f g : A -> bool) l : (forall x, f x = true -> g x = true) ->
  length (filter f l) <= length (filter g l).
Proof.
  intros H. induction l as [|a l IH]; cbn; auto. pose proof (H a).
  destruct (f a); [rewrite H0 by auto; cbn; lia|]. destruct (g a); cbn; lia.
Qed.

Lemma filter_lt {A} (f g : A -> bool) l a : (forall x, f x = true -> g x = true) ->
  In a l -> f a = false -> g a = true -> length (filter f l) < length (filter g l).
Proof.
  intros H. induction l as [|b l IH]; intros [].
  - subst b. intros Hf Hg. cbn. rewrite Hf, Hg. cbn. pose proof (filter_le f g l H). lia.
  - intros Hf Hg. specialize (IH H0 Hf Hg). cbn. pose proof (H b).
    destruct (f b); [rewrite H1 by auto; cbn; lia|]. destruct (g b); cbn; lia.
Qed.

Lemma free_one_cnt h : cnt (free_one h) <= cnt h /\ gc (free_one h) = gc h /\
  top (free_one h) = top h /\ fresh (free_one h) = fresh h.
Proof.
  unfold free_one, get. destruct (lists h GFree) as [|o r]; [auto|].
  split; [|auto]. unfold cnt. cbn [fresh set_freed set_mem set_lists]. apply filter_le.
  intros x. unfold untraversed. cbn. unfold upd. destruct (Nat.eq_dec x o); [discriminate|auto].
Qed.

(** Every step of the collector makes progress, until it is done. *)
Lemma incr_gc_progress h R P B h' : Inv h R P B -> incr_gc h = Some h' -> g_next (gc h) <> None ->
  left_ h' < left_ h \/ (left_ h' = left_ h /\ cnt h' < cnt h).
Proof.
  intros I H Hn. unfold incr_gc in H.
  assert (I2 := free_one_inv _ _ _ _ (free_one_inv _ _ _ _ I)).
  destruct (free_one_cnt h) as [C1 [G1 [T1 F1]]].
  destruct (free_one_cnt (free_one h)) as [C2 [G2 [T2 F2]]].
  set (h2 := free_one (free_one h)) in *.
  assert (L : left_ h2 = left_ h) by (unfold left_; rewrite G2, G1, T2, T1; reflexivity).
  assert (C : cnt h2 <= cnt h) by lia. rewrite <- L.
  rewrite <- G1, <- G2 in Hn. clearbody h2. clear C1 G1 T1 F1 C2 G2 T2 F2 L I.
  unfold get in H. destruct (lists h2 GMrk) as [|o r] eqn:Eg.
  - destruct (mlt_same (Mrk (g_frame (gc h2))) (g_save (gc h2)) (move_all h2 GFree GUnm)) as [M1 [M2 [M3 [M4 [M5 M6]]]]].
    cbv zeta in H. set (h3 := move_list_to _ _ _) in *. cbn [mem fresh freed top gc frames move_all set_lists] in *.
    destruct (g_next (gc h2)) as [n|] eqn:En; [|congruence]. injection H as <-.
    pose proof (i_next _ _ _ _ I2 _ En) as Hle.
    left. unfold left_. rewrite En. cbn. rewrite M4. destruct (Nat.eq_dec n (top h2)); lia.
  - cbn [mem set_lists] in H. destruct (mem h2 o) as [ob|] eqn:Em; [|discriminate].
    destruct (oloc ob) as [|g0] eqn:El; [discriminate|].
    assert (Ho : inl h2 GMrk o) by (unfold inl; rewrite Eg; cbn; auto).
    assert (Hg0 : g0 <> g_gen (gc h2)).
    { apply (i_gpr _ _ _ _ I2 o g0); [apply rch_base; exact Ho|exists ob; auto]. }
    assert (Hf : o < fresh h2) by exact (i_fresh _ _ _ _ I2 _ _ Em).
    match type of H with context [mark_refs ?a ?b] => destruct (mark_refs a b) as [h3|] eqn:E3; [|discriminate] end.
    injection H as <-.
    right. destruct (mark_refs_same _ _ _ E3) as [M1 [M2 [M3 M4]]]. cbn in M1, M2, M3, M4.
    split.
    + unfold left_. cbn. rewrite M3, M4. reflexivity.
    + eapply Nat.lt_le_trans; [|exact C]. unfold cnt. cbn [fresh move_to set_lists]. rewrite M2.
      apply (filter_lt _ _ _ o).
      * intros x. unfold untraversed. cbn. rewrite M1, M4. unfold upd.
        destruct (Nat.eq_dec x o); [cbn; rewrite Nat.eqb_refl; discriminate|auto].
      * apply in_seq. lia.
      * unfold untraversed. cbn. rewrite M1, M4. unfold upd. destruct (Nat.eq_dec o o); [|congruence].
        cbn. rewrite Nat.eqb_refl. reflexivity.
      * unfold untraversed. rewrite Em, El. destruct (Nat.eqb_spec g0 (g_gen (gc h2))); [congruence|reflexivity].
Qed.

Lemma done_iff h R P B : Inv h R P B -> (full_gc_done h = true <-> g_next (gc h) = None).
Proof.
  intros I. unfold full_gc_done. destruct (g_next (gc h)) as [n|] eqn:En; [split; discriminate|].
  split; [auto|]. intros _.
  assert (N : forall x, ~ (inl h (Unm (g_frame (gc h))) x \/ inl h (Mrk (g_frame (gc h))) x)).
  { intros x Hx. destruct (i_work _ _ _ _ I _ x (i_gf _ _ _ _ I) Hx) as [n [Hn _]]. congruence. }
  unfold inl in N. destruct (lists h (Mrk (g_frame (gc h)))) as [|a l]; [|destruct (N a); cbn; auto].
  destruct (lists h (Unm (g_frame (gc h)))) as [|a l]; [reflexivity|destruct (N a); cbn; auto].
Qed.

Lemma full_gc_terminates_inv R P B : forall a b h, left_ h <= a -> cnt h <= b -> Inv h R P B ->
  exists fuel h', full_gc fuel h = Some h' /\ Inv h' R P B /\ g_next (gc h') = None /\ quiet h h'.
Proof.
  induction a as [a IHa] using lt_wf_ind. induction b as [b IHb] using lt_wf_ind.
  intros h Ha Hb I. destruct (full_gc_done h) eqn:Ed.
  - exists 0, h. cbn. rewrite Ed. split; [reflexivity|]. split; [exact I|].
    split; [apply (done_iff _ _ _ _ I); exact Ed|apply quiet_refl].
  - destruct (incr_gc_inv _ _ _ _ I) as [h1 [E1 [I1 Q1]]].
    assert (Hn : g_next (gc h) <> None).
    { intros Hn. apply (done_iff _ _ _ _ I) in Hn. congruence. }
    assert (K : exists fuel h', full_gc fuel h1 = Some h' /\ Inv h' R P B /\ g_next (gc h') = None /\ quiet h1 h').
    { destruct (incr_gc_progress _ _ _ _ _ I E1 Hn) as [Hl|[Hl Hc]].
      - apply (IHa (left_ h1)) with (b := cnt h1); auto. lia.
      - apply (IHb (cnt h1)); auto; lia. }
    destruct K as [fuel [h' [E2 [I2 [N2 Q2]]]]].
    exists (S fuel), h'. cbn [full_gc]. rewrite Ed, E1. split; [exact E2|]. split; [exact I2|].
    split; [exact N2|eapply quiet_trans; eauto].
Qed.

(** ** C13: full collection terminates in every state a client can reach, without
    undefined behaviour, and everything in use is still there afterwards. *)

Definition with_heap (s : cst) (h : heap) : cst := mk_cst h (c_vals s) (c_refs s).

Theorem full_gc_terminates_repaired s : reached true any s ->
  exists fuel h', full_gc fuel (c_heap s) = Some h' /\ intact (with_heap s h').
Proof.
  intros H. assert (I : sinv s) by (eapply reached_sinv; [|exact H]; auto).
  destruct (full_gc_terminates_inv _ _ _ _ _ _ (le_n _) (le_n _) I) as [f [h' [E [I' _]]]].
  exists f, h'. split; [exact E|]. apply sinv_intact. exact I'.
Qed.

Theorem full_gc_terminates_partial s : reached false pop_owned s ->
  exists fuel h', full_gc fuel (c_heap s) = Some h' /\ intact (with_heap s h').
Proof.
  intros H. assert (I : sinv s) by (eapply reached_sinv; [|exact H]; auto).
  destruct (full_gc_terminates_inv _ _ _ _ _ _ (le_n _) (le_n _) I) as [f [h' [E [I' _]]]].
  exists f, h'. split; [exact E|]. apply sinv_intact. exact I'.
Qed.

(** ** C14 is false of the code: a native value that nothing refers to survives a full
    collection (the last objects found to be garbage are left on a list that is only
    looked at when the next collection starts). *)

Definition unreachable (s : cst) (x : nat) : Prop :=
  forall d v, d <= top (c_heap s) -> In v (c_vals s d) -> ~ follows (mem (c_heap s)) v x.

Definition lone_native : list op := [Push false []; NewNative 1; Pop (VPacked 0)].

Lemma packed_follows m z x : ~ follows m (VPacked z) x.
Proof. intros F. remember (VPacked z) as v eqn:Ev. induction F; [discriminate|auto]. Qed.

Theorem full_gc_complete_refuted : exists s x fuel h',
  reached false pop_owned s /\ unreachable s x /\
  full_gc fuel (c_heap s) = Some h' /\ mem h' x = Some (mk_obj (KNative 1) [] (LGc 1)).
Proof.
  destruct (pop_ownedsb_ok lone_native init (reached_init _ _)) as [s [E Hs]]; [vm_compute; reflexivity|].
  assert (V : option_map (fun s => (c_vals s 0, top (c_heap s))) (execs false init lone_native) =
    Some ([VPacked 0], 0)) by (vm_compute; reflexivity).
  assert (W : match execs false init lone_native with
              | Some s => option_map (fun h => mem h 0) (full_gc 5 (c_heap s))
              | None => None end = Some (Some (mk_obj (KNative 1) [] (LGc 1)))) by (vm_compute; reflexivity).
  rewrite E in V, W. cbn [option_map] in V. injection V as V1 V2.
  destruct (full_gc 5 (c_heap s)) as [h'|] eqn:Eh; [|discriminate]. injection W as W.
  exists s, 0, 5, h'. split; [exact Hs|]. split; [|auto].
  intros d v Hd Hv F. rewrite V2 in Hd. replace d with 0 in Hv by lia. rewrite V1 in Hv.
  destruct Hv as [<-|[]]. exact (packed_follows _ _ _ F).
Qed.

(** Beside it: the case of the positive theorems is not vacuous, the history of
    [GcProps.cycle_history] reaches a state with three garbage objects. *)
Example full_gc_collects : exists s, execs false init cycle_history = Some s /\ reached false pop_owned s.
Proof. exact cycle_history_reached. Qed.
