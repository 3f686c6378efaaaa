(** * Invariant of the memory management model (GcModel.v). *)

From Coq Require Import Arith List Bool Lia.
From Verif Require Import GcModel.
Import ListNotations.

(** ** Vocabulary *)

Definition inl (h : heap) (l : lid) (x : nat) : Prop := In x (lists h l).

Definition genx (m : nat -> option obj) (x g : nat) : Prop :=
  exists ob, m x = Some ob /\ oloc ob = LGc g.
Definition gcobj (m : nat -> option obj) (x : nat) : Prop := exists g, genx m x g.
Definition stackobj (m : nat -> option obj) (x d : nat) : Prop :=
  exists ob g, m x = Some ob /\ oloc ob = LStack g d.

(** [o] refers to [x]: a field, or the GC copy of a stack object. *)
Definition edge (m : nat -> option obj) (o x : nat) : Prop :=
  exists ob, m o = Some ob /\
    (In (VObj x) (ofields ob) \/ exists d, oloc ob = LStack (Some x) d).

(** Not freed and not waiting to be freed. *)
Definition nf (h : heap) (x : nat) : Prop := mem h x <> None /\ ~ inl h GFree x.

(** Objects that belong to frame [d]. *)
Definition fr (h : heap) (x d : nat) : Prop :=
  inl h (Unm d) x \/ inl h (Mrk d) x \/ inl h (All d) x \/
  ((inl h GMrk x \/ inl h GUnm x) /\ g_frame (gc h) = d) \/
  stackobj (mem h) x d.
Definition frle (h : heap) (x d : nat) : Prop := exists d', d' <= d /\ fr h x d'.

Definition ingc (h : heap) (x : nat) : Prop := inl h GMrk x \/ inl h GUnm x.

Inductive rch (m : nat -> option obj) (M U : nat -> Prop) : nat -> Prop :=
| rch_base x : M x -> rch m M U x
| rch_step o x : rch m M U o -> edge m o x -> U x -> rch m M U x.

(** Potential garbage of frame [d], and the part of it known to be in use. *)
Definition Uf (h : heap) (d x : nat) : Prop :=
  inl h (Unm d) x \/ (g_int (gc h) = true /\ g_frame (gc h) = d /\ ingc h x).
Definition Mf (h : heap) (d x : nat) : Prop :=
  inl h (Mrk d) x \/ (g_int (gc h) = true /\ g_frame (gc h) = d /\ In x (g_save (gc h))).
Definition rchf (h : heap) (d : nat) : nat -> Prop := rch (mem h) (Mf h d) (Uf h d).
Definition gpr (h : heap) : nat -> Prop := rch (mem h) (inl h GMrk) (inl h GUnm).

Definition Cf (h : heap) (d x : nat) : Prop := Uf h d x -> rchf h d x.
Definition Cg (h : heap) (x : nat) : Prop := inl h GUnm x -> gpr h x.

Definition kind_ok (k : kind) : Prop :=
  match k with KRef | KNative _ => False | _ => True end.

(** ** The invariant.  [R d] are the values of frame [d] the client may use, [P d]
    the references it may still assign, [B] the GC objects under construction (with
    their frame). *)
Record Base (h : heap) (R : nat -> list value) (P : nat -> list nat) (B : list (nat * nat)) : Prop := {
  i_uniq : forall l l' x, inl h l x -> inl h l' x -> l = l';
  i_nodup : forall l, NoDup (lists h l);
  i_above : forall d, top h < d ->
    lists h (Unm d) = [] /\ lists h (Mrk d) = [] /\ lists h (All d) = [];
  i_gcobj : forall l x, inl h l x -> gcobj (mem h) x;
  i_listed : forall x, gcobj (mem h) x -> exists l, inl h l x;
  i_fresh : forall x ob, mem h x = Some ob -> x < fresh h;
  i_stack : forall x ob g d, mem h x = Some ob -> oloc ob = LStack g d ->
    d <= top h /\ kind_ok (okind ob) /\
    (forall y d', In (VObj y) (ofields ob) -> stackobj (mem h) y d' -> y < x);
  i_uninit : forall x ob, nf h x -> mem h x = Some ob -> In VUninit (ofields ob) ->
    exists d, In (x, d) B;
  i_B : forall b d, In (b, d) B -> inl h (All d) b;
  i_edge : forall o x, nf h o -> edge (mem h) o x ->
    nf h x /\ forall d, fr h o d -> frle h x d;
  i_gcedge : forall o x, nf h o -> gcobj (mem h) o -> edge (mem h) o x -> gcobj (mem h) x;
  i_gcptr : forall o ob g d, mem h o = Some ob -> oloc ob = LStack (Some g) d -> gcobj (mem h) g;
  i_root : forall d x, d <= top h -> In (VObj x) (R d) -> nf h x /\ frle h x d;
  i_rootu : forall d, d <= top h -> ~ In VUninit (R d);
  i_pend : forall d r, d <= top h -> In r (P d) -> inl h (All d) r /\
    exists ob v, mem h r = Some ob /\ okind ob = KRef /\ ofields ob = [v];
  i_gens : forall d, d <= top h ->
    min_gen (frames h d) <= gen (frames h d) < max_gen (frames h d);
  i_chain : forall d, S d <= top h -> max_gen (frames h d) <= min_gen (frames h (S d))
}.

Record Inv (h : heap) (R : nat -> list value) (P : nat -> list nat) (B : list (nat * nat)) : Prop := {
  i_base : Base h R P B;
  i_all : forall d x g, d <= top h -> inl h (All d) x -> genx (mem h) x g -> g = gen (frames h d);
  i_rch : forall d x g, d <= top h -> rchf h d x -> genx (mem h) x g ->
    min_gen (frames h d) <= g < max_gen (frames h d) /\ g <> gen (frames h d);
  i_gpr : forall x g, gpr h x -> genx (mem h) x g ->
    g_min (gc h) <= g < g_max (gc h) /\ g <> g_gen (gc h);
  i_gout : forall o x, gpr h o -> edge (mem h) o x ->
    ingc h x \/ forall g, genx (mem h) x g -> g < g_min (gc h) \/ g = g_gen (gc h);
  i_g3 : forall x g, rchf h (g_frame (gc h)) x -> ~ ingc h x -> genx (mem h) x g ->
    g < g_min (gc h) \/ g = g_gen (gc h) \/ g_max (gc h) <= g;
  i_T : forall d o x, d <= top h -> nf h o -> Cf h d o -> edge (mem h) o x -> Cf h d x;
  i_Troot : forall d d' x, d <= top h -> d' <= top h -> In (VObj x) (R d') -> Cf h d x;
  i_Tg : forall o x, nf h o -> Cg h o -> edge (mem h) o x -> Cg h x;
  i_Tgroot : forall d x, d <= top h -> In (VObj x) (R d) -> Cg h x;
  i_gf : g_frame (gc h) <= top h;
  i_ggen : g_min (gc h) <= g_gen (gc h) < g_max (gc h);
  i_gmax : g_max (gc h) <= max_gen (frames h (g_frame (gc h)));
  i_gmin : min_gen (frames h (g_frame (gc h))) <= g_min (gc h);
  i_nint : g_int (gc h) = false ->
    g_save (gc h) = [] /\ g_gen (gc h) = gen (frames h (g_frame (gc h)));
  i_int : g_int (gc h) = true ->
    (gen (frames h (g_frame (gc h))) < g_min (gc h) \/
     g_max (gc h) <= gen (frames h (g_frame (gc h)))) /\
    (forall x, In x (g_save (gc h)) -> inl h GMrk x \/ inl h (Unm (g_frame (gc h))) x \/ inl h (Mrk (g_frame (gc h))) x) /\
    (exists n, g_next (gc h) = Some n /\ n <= g_frame (gc h));
  i_next : forall n, g_next (gc h) = Some n -> n <= top h;
  i_work : forall d x, d <= top h -> inl h (Unm d) x \/ inl h (Mrk d) x ->
    exists n, g_next (gc h) = Some n /\ n <= d
}.

Coercion i_base : Inv >-> Base.
#[export] Hint Resolve i_base : core.

(** ** General facts *)

Lemma in_rem o l x : In x (rem o l) <-> In x l /\ x <> o.
Proof.
  unfold rem. split.
  - intros H. apply in_remove in H. tauto.
  - intros [H1 H2]. apply in_in_remove; auto.
Qed.

Lemma nodup_rem o l : NoDup l -> NoDup (rem o l).
Proof.
  unfold rem. induction l as [|a l IH]; intros H; cbn [remove]; [constructor|].
  inversion H; subst. destruct (Nat.eq_dec o a); auto.
  constructor; auto. intros Hi. apply in_remove in Hi. tauto.
Qed.

Lemma rem_notin o l : ~ In o l -> rem o l = l.
Proof. unfold rem. intros H. apply notin_remove. exact H. Qed.

Lemma inl_move_to h dst o l x :
  inl (move_to h dst o) l x <-> (l = dst /\ x = o) \/ (inl h l x /\ x <> o).
Proof.
  unfold inl, move_to, set_lists; cbn [lists].
  destruct (lid_eq_dec l dst) as [e|n]; cbn [In]; rewrite in_rem; intuition congruence.
Qed.

Lemma inl_move_all h dst src l x : dst <> src ->
  (inl (move_all h dst src) l x <->
   (l = dst /\ (inl h dst x \/ inl h src x)) \/ (l <> dst /\ l <> src /\ inl h l x)).
Proof.
  intros Hn. unfold inl, move_all, set_lists, updl; cbn [lists].
  destruct (lid_eq_dec l src) as [e|n]; [|destruct (lid_eq_dec l dst) as [e|n']].
  - subst. cbn [In]. intuition congruence.
  - subst. rewrite in_app_iff. intuition congruence.
  - intuition congruence.
Qed.

Lemma inl_dec h l x : {inl h l x} + {~ inl h l x}.
Proof. unfold inl. apply in_dec. apply Nat.eq_dec. Qed.

Lemma ingc_dec h x : {ingc h x} + {~ ingc h x}.
Proof.
  unfold ingc. destruct (inl_dec h GMrk x); [left; auto|].
  destruct (inl_dec h GUnm x); [left; auto|right; tauto].
Qed.

Lemma Uf_dec h d x : {Uf h d x} + {~ Uf h d x}.
Proof.
  unfold Uf. destruct (inl_dec h (Unm d) x); [left; auto|].
  destruct (bool_dec (g_int (gc h)) true); [|right; tauto].
  destruct (Nat.eq_dec (g_frame (gc h)) d); [|right; tauto].
  destruct (ingc_dec h x); [left; tauto|right; tauto].
Qed.

Lemma rch_mono m m' (M M' U U' : nat -> Prop) x :
  (forall x, M x -> M' x) ->
  (forall x, U x -> U' x) ->
  (forall o x, rch m M U o -> edge m o x -> edge m' o x) ->
  rch m M U x -> rch m' M' U' x.
Proof.
  intros HM HU HE H. induction H as [x H|o x H IH He Hu].
  - apply rch_base; auto.
  - eapply rch_step; eauto.
Qed.

Lemma rch_in m (M U : nat -> Prop) x : rch m M U x -> M x \/ U x.
Proof. intros H; destruct H; auto. Qed.

Lemma genx_fun m x g g' : genx m x g -> genx m x g' -> g = g'.
Proof. intros [ob [H1 H2]] [ob' [H3 H4]]. congruence. Qed.

Lemma genx_stack m x g d : genx m x g -> stackobj m x d -> False.
Proof. intros [ob [H1 H2]] [ob' [p [H3 H4]]]. congruence. Qed.

Lemma stackobj_fun m x d d' : stackobj m x d -> stackobj m x d' -> d = d'.
Proof. intros [ob [p [H1 H2]]] [ob' [p' [H3 H4]]]. congruence. Qed.

Section facts.
  Context {h : heap} {R : nat -> list value} {P : nat -> list nat} {B : list (nat * nat)}.
  Context (I : Inv h R P B).

  Lemma listed_nf l x : inl h l x -> l <> GFree -> nf h x.
  Proof.
    intros H Hl. split.
    - destruct (i_gcobj _ _ _ _ I _ _ H) as [g [ob [Hm _]]]. congruence.
    - intros Hf. apply Hl. eapply i_uniq; eauto.
  Qed.

  Lemma gc_not_stack l x d : inl h l x -> stackobj (mem h) x d -> False.
  Proof.
    intros H Hs. destruct (i_gcobj _ _ _ _ I _ _ H) as [g Hg].
    eapply genx_stack; eauto.
  Qed.

  Lemma fr_unique x d d' : fr h x d -> fr h x d' -> d = d'.
  Proof.
    intros H1 H2.
    assert (U := fun l l' => i_uniq _ _ _ _ I l l' x).
    assert (S := fun l => gc_not_stack l x).
    unfold fr in *.
    repeat match goal with
    | H : _ \/ _ |- _ => destruct H
    | H : _ /\ _ |- _ => destruct H
    | A : inl h ?l x, B : inl h ?l' x |- _ =>
        assert (l = l') by eauto; clear B; try discriminate
    end; try congruence; try (exfalso; eapply S; eassumption).
    eapply stackobj_fun; eauto.
  Qed.

  Lemma frle_fr x d d' : frle h x d -> fr h x d' -> d' <= d.
  Proof. intros [e [He H1]] H2. assert (e = d') by (eapply fr_unique; eauto). lia. Qed.

  Lemma fr_top x d : fr h x d -> d <= top h.
  Proof.
    intros H. destruct (le_lt_dec d (top h)) as [|Hl]; auto. exfalso.
    destruct (i_above _ _ _ _ I _ Hl) as [H1 [H2 H3]].
    unfold fr, inl in H. rewrite H1, H2, H3 in H. cbn [In] in H.
    destruct H as [H|[H|[H|[[_ H]|H]]]]; try tauto.
    - pose proof (i_gf _ _ _ _ I). lia.
    - destruct H as [ob [p [Hm Ho]]].
      pose proof (i_stack _ _ _ _ I _ _ _ _ Hm Ho). lia.
  Qed.

  Lemma nf_fr x : nf h x -> exists d, fr h x d.
  Proof.
    intros [Hm Hf]. destruct (mem h x) as [ob|] eqn:E; [|congruence].
    destruct (oloc ob) as [p d|g] eqn:El.
    - exists d. right; right; right; right. exists ob, p. auto.
    - destruct (i_listed _ _ _ _ I x) as [l Hl]; [exists g, ob; auto|].
      destruct l; unfold fr; try tauto; eauto.
      + exists (g_frame (gc h)). tauto.
      + exists (g_frame (gc h)). tauto.
  Qed.

  Lemma chain d d' : d < d' -> d' <= top h -> max_gen (frames h d) <= min_gen (frames h d').
  Proof.
    intros Hlt. induction Hlt as [|d' Hlt IH]; intros Ht.
    - apply (i_chain _ _ _ _ I). exact Ht.
    - assert (Hd : d' <= top h) by lia.
      specialize (IH Hd). pose proof (i_gens _ _ _ _ I _ Hd).
      pose proof (i_chain _ _ _ _ I _ Ht). lia.
  Qed.

  (** The generation of an object that may be in use identifies its frame. *)
  Lemma gen_range x d g : fr h x d -> Cf h d x -> Cg h x -> genx (mem h) x g ->
    min_gen (frames h d) <= g < max_gen (frames h d).
  Proof.
    intros Hf HC HG Hg.
    pose proof (fr_top _ _ Hf) as Ht. pose proof (i_gens _ _ _ _ I _ Ht) as Hgen.
    unfold fr in Hf. destruct Hf as [H|[H|[H|[[H Hd]|H]]]].
    - apply (i_rch _ _ _ _ I d x g); auto. apply HC. left; auto.
    - apply (i_rch _ _ _ _ I d x g); auto. apply rch_base. left; auto.
    - rewrite (i_all _ _ _ _ I _ _ _ Ht H Hg). lia.
    - assert (Hp : gpr h x) by (destruct H; [apply rch_base|apply HG]; auto).
      pose proof (i_gpr _ _ _ _ I _ _ Hp Hg). subst d.
      pose proof (i_gmax _ _ _ _ I). pose proof (i_gmin _ _ _ _ I). lia.
    - exfalso. eapply genx_stack; eauto.
  Qed.

  Lemma root_range d x d' g : d <= top h -> In (VObj x) (R d) -> fr h x d' -> genx (mem h) x g ->
    min_gen (frames h d') <= g < max_gen (frames h d').
  Proof.
    intros Hd Hr Hf Hg. eapply gen_range; eauto.
    - eapply i_Troot; eauto. eapply fr_top; eauto.
    - eapply i_Tgroot; eauto.
  Qed.

  (** An object that may be in use is undergoing collection exactly if it is in the
      collector's lists. *)
  Lemma root_undergoing d x g : d <= top h -> In (VObj x) (R d) -> genx (mem h) x g ->
    (ingc h x <-> (g_min (gc h) <= g /\ g <> g_gen (gc h) /\ g < g_max (gc h))).
  Proof.
    intros Hd Hr Hg. split.
    - intros Hi. assert (Hp : gpr h x).
      { destruct Hi as [Hi|Hi]; [apply rch_base; auto|].
        apply (i_Tgroot _ _ _ _ I _ _ Hd Hr). auto. }
      pose proof (i_gpr _ _ _ _ I _ _ Hp Hg). lia.
    - intros Hw. destruct (ingc_dec h x) as [|Hn]; auto. exfalso.
      destruct (i_root _ _ _ _ I _ _ Hd Hr) as [Hnf _].
      destruct (nf_fr _ Hnf) as [d' Hf].
      pose proof (root_range _ _ _ _ Hd Hr Hf Hg) as Hrg.
      pose proof (fr_top _ _ Hf) as Ht.
      pose proof (i_gmax _ _ _ _ I) as Hmax. pose proof (i_gmin _ _ _ _ I) as Hmin.
      pose proof (i_gf _ _ _ _ I) as Hgf.
      destruct (lt_eq_lt_dec d' (g_frame (gc h))) as [[Hlt|He]|Hgt].
      + pose proof (chain _ _ Hlt Hgf). lia.
      + subst d'. unfold fr in Hf. destruct Hf as [H|[H|[H|[[H _]|H]]]].
        * assert (Hr' : rchf h (g_frame (gc h)) x).
          { apply (i_Troot _ _ _ _ I _ _ _ Ht Hd Hr). left; auto. }
          pose proof (i_g3 _ _ _ _ I _ _ Hr' Hn Hg). lia.
        * assert (Hr' : rchf h (g_frame (gc h)) x) by (apply rch_base; left; auto).
          pose proof (i_g3 _ _ _ _ I _ _ Hr' Hn Hg). lia.
        * pose proof (i_all _ _ _ _ I _ _ _ Ht H Hg) as Hall.
          destruct (g_int (gc h)) eqn:E.
          -- destruct (i_int _ _ _ _ I E) as [Hi _]. lia.
          -- destruct (i_nint _ _ _ _ I E) as [_ Hi]. lia.
        * contradiction.
        * eapply genx_stack; eauto.
      + pose proof (chain _ _ Hgt Ht). lia.
  Qed.
End facts.
