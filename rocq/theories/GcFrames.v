(** * The invariant of GcInv.v is preserved by the operations on frames. *)

From Coq Require Import Arith List Bool Lia.
From Verif Require Import GcModel GcInv GcStep GcAlloc.
Import ListNotations.

(** ** Reallocation *)

Lemma realloc_inv h R P B d v : Inv h R P B -> d <= top h -> gv h d v ->
  exists h' v', realloc h v = Some (h', v') /\ Inv h' R P B /\ ext h h' /\ gv h' d v' /\
    gcval (mem h') v'.
Proof.
  intros I Hd Hv. unfold realloc. apply gc_realloc_inv; auto.
  intros x e _ [b [p [Hb _]]]. eapply i_fresh; eauto.
Qed.

Lemma gcval_fwd h h' R0 P0 B0 R P B d v : ext h h' -> Inv h R0 P0 B0 -> Inv h' R P B -> d <= top h ->
  In v (R d) -> gcval (mem h) v -> gcval (mem h') v.
Proof.
  intros E I I' Hd Hr Hg. destruct v as [| |x|]; try exact Logic.I; [|contradiction].
  cbn in *. destruct Hg as [g [a [Ha Hl]]].
  destruct (i_root _ _ _ _ I' d x) as [Hn _]; auto; [rewrite (e_top _ _ _ E); auto|].
  eapply gcobj_fwd; eauto; [eapply i_fresh; eauto|exists g, a; auto].
Qed.

Lemma realloc_list_inv vs : forall h R P B d, Inv h R P B -> d <= top h ->
  (forall v, In v vs -> gv h d v) ->
  exists h' vs', realloc_list h vs = Some (h', vs') /\ Inv h' (radd R d vs') P B /\ ext h h' /\
    (forall v, In v vs' -> gcval (mem h') v).
Proof.
  induction vs as [|v vs IH]; intros h R P B d I Hd Hvs.
  - exists h, []. cbn [realloc_list]. split; [reflexivity|].
    split; [apply inv_radd; auto; intros v []|]. split; [apply ext_refl|intros v []].
  - cbn [realloc_list].
    assert (I0 : Inv h (radd R d (v :: vs)) P B) by (apply inv_radd; auto).
    destruct (realloc_inv h _ P B d v I0 Hd) as [h1 [v1 [-> [I1 [E1 [G1 C1]]]]]];
      [apply Hvs; cbn; auto|].
    assert (I1' : Inv h1 (radd (radd R d (v :: vs)) d [v1]) P B).
    { apply inv_radd; auto. intros u [<-|[]]. exact G1. }
    assert (Hd1 : d <= top h1) by (rewrite (e_top _ _ _ E1); auto).
    destruct (IH h1 _ P B d I1' Hd1) as [h2 [vs2 [-> [I2 [E2 C2]]]]].
    { intros u Hu. eapply root_gv; [exact I1'|exact Hd1|]. rewrite !in_radd. cbn. auto. }
    exists h2, (v1 :: vs2). split; [reflexivity|].
    assert (Hd2 : d <= top h2) by (rewrite (e_top _ _ _ E2); auto).
    split; [|split; [eapply ext_trans; eauto|]].
    + eapply inv_roots; [exact I2|]. intros e u He Hu.
      eapply root_gv; [exact I2|exact He|].
      rewrite in_radd in Hu. rewrite !in_radd. cbn [In] in *. intuition (subst; auto).
    + intros u [<-|Hu]; auto.
      eapply gcval_fwd; [exact E2|exact I1|exact I2|exact Hd1| |exact C1].
      rewrite !in_radd. cbn; auto.
Qed.

Lemma new_leaf_inv h R P k fs : Inv h R P [] -> (forall x, ~ In (VObj x) fs) -> ~ In VUninit fs ->
  exists h' o, new_gc h (top h) k fs = Some (h', o) /\ Inv h' R P [] /\ gv h' (top h) (VObj o) /\
    ext h h' /\ inl h' (All (top h)) o /\ gcobj (mem h') o /\
    mem h' o = Some (mk_obj k fs (LGc (gen (frames h (top h))))).
Proof.
  intros I Hfs Hu.
  destruct (new_gc_inv h R P [] (top h) k fs I (le_n _) Hfs)
    as [h' [o [H1 [I1 [G1 [E1 [Hal [Hm [Hf _]]]]]]]]].
  exists h', o. split; [exact H1|]. split.
  { eapply drop_B; eauto. intros ob Hob. rewrite Hm in Hob. injection Hob as <-. exact Hu. }
  split; [exact G1|]. split; [exact E1|]. split; [exact Hal|]. split; [eapply i_gcobj; eauto|exact Hm].
Qed.

Lemma inv_padd h R P B d r : Inv h R P B -> d <= top h -> inl h (All d) r ->
  (exists ob v, mem h r = Some ob /\ okind ob = KRef /\ ofields ob = [v]) ->
  Inv h R (upd P d (r :: P d)) B.
Proof.
  intros I Hd Hr Hob. destruct I as [[]]. constructor; [constructor|..]; auto.
  intros e r0 He Hin. unfold upd in Hin. destruct (Nat.eq_dec e d) as [->|]; auto.
  destruct Hin as [<-|Hin]; auto.
Qed.

Lemma new_ref_inv h R P : Inv h R P [] ->
  exists h' r, new_ref h = Some (h', r) /\
    Inv h' (radd R (top h) [VObj r]) (upd P (top h) (r :: P (top h))) [] /\ ext h h'.
Proof.
  intros I. unfold new_ref.
  destruct (new_leaf_inv h R P KRef [VNull] I) as [h' [r [H1 [I1 [G1 [E1 [Ha [Hg Hm]]]]]]]].
  { intros x [H|[]]; discriminate. }
  { intros [H|[]]; discriminate. }
  exists h', r. split; [exact H1|]. split; [|exact E1].
  apply inv_padd; auto.
  - apply inv_radd; auto. intros v [<-|[]]. exact G1.
  - rewrite (e_top _ _ _ E1). auto.
  - eexists _, VNull. split; [exact Hm|]. auto.
Qed.

Lemma new_native_inv h R P data : Inv h R P [] ->
  exists h' o, new_native h data = Some (h', o) /\ Inv h' (radd R (top h) [VObj o]) P [] /\ ext h h'.
Proof.
  intros I. unfold new_native.
  destruct (new_leaf_inv h R P (KNative data) [] I) as [h' [r [H1 [I1 [G1 [E1 [Ha [Hg Hm]]]]]]]];
    try (cbn; tauto).
  exists h', r. split; [exact H1|]. split; [|exact E1].
  apply inv_radd; auto. intros v [<-|[]]. exact G1.
Qed.

Lemma assign_inv h R P r v : Inv h R P [] -> In r (P (top h)) -> In v (R (top h)) ->
  exists h', assign_ref h r v = Some h' /\ Inv h' R P [] /\ top h' = top h.
Proof.
  intros I Hr Hv. unfold assign_ref.
  destruct (realloc_inv h R P [] (top h) v I (le_n _)) as [h1 [v1 [-> [I1 [E1 [G1 C1]]]]]].
  { eapply root_gv; eauto. }
  pose proof (e_top _ _ _ E1) as Ht.
  exists (set_field h1 r 0 v1). split; [reflexivity|].
  destruct (i_pend _ _ _ _ I1 (top h) r) as [Hal [ob [w [Hm _]]]]; [rewrite Ht; auto|auto|].
  destruct (set_field_inv h1 R P [] r (top h) 0 v1 I1 Hal G1 C1) as [I2 _].
  split; [exact I2|]. unfold set_field. rewrite Hm. cbn. exact Ht.
Qed.

(** ** PushFrame *)

Lemma push_merge_inv h R P B : Inv h R P B -> Inv (push h true) R P B.
Proof.
  intros I. unfold push.
  set (f := frames h (top h)).
  assert (Hf : forall d, let f' := upd (frames h) (top h) (mk_frame (S (merges f)) (min_gen f) (gen f) (max_gen f)) d in
     min_gen f' = min_gen (frames h d) /\ gen f' = gen (frames h d) /\ max_gen f' = max_gen (frames h d)).
  { intros d. unfold upd. cbn zeta. destruct (Nat.eq_dec d (top h)) as [->|]; auto. }
  set (F := upd _ _ _) in *.
  assert (F1 : forall d, min_gen (F d) = min_gen (frames h d)) by (intros d; apply (Hf d)).
  assert (F2 : forall d, gen (F d) = gen (frames h d)) by (intros d; apply (Hf d)).
  assert (F3 : forall d, max_gen (F d) = max_gen (frames h d)) by (intros d; apply (Hf d)).
  clearbody F. clear Hf.
  destruct I as [[]]. constructor; [constructor|..]; auto; cbn [frames set_frames top];
    try (intros; rewrite ?F1, ?F2, ?F3; auto; fail).
  - intros d x g. rewrite F2. apply i_all.
  - intros d x g. rewrite F1, F2, F3. apply i_rch.
Qed.

Lemma dec_merge_inv h R P B n : Inv h R P B -> let f := frames h (top h) in
  Inv (set_frames h (upd (frames h) (top h) (mk_frame n (min_gen f) (gen f) (max_gen f)))) R P B.
Proof.
  intros I f.
  assert (Hf : forall d, let f' := upd (frames h) (top h) (mk_frame n (min_gen f) (gen f) (max_gen f)) d in
     min_gen f' = min_gen (frames h d) /\ gen f' = gen (frames h d) /\ max_gen f' = max_gen (frames h d)).
  { intros d. unfold upd. cbn zeta. destruct (Nat.eq_dec d (top h)) as [->|]; auto. }
  set (F := upd _ _ _) in *.
  assert (F1 : forall d, min_gen (F d) = min_gen (frames h d)) by (intros d; apply (Hf d)).
  assert (F2 : forall d, gen (F d) = gen (frames h d)) by (intros d; apply (Hf d)).
  assert (F3 : forall d, max_gen (F d) = max_gen (frames h d)) by (intros d; apply (Hf d)).
  clearbody F. clear Hf.
  destruct I as [[]]. constructor; [constructor|..]; auto; cbn [frames set_frames top];
    try (intros; rewrite ?F1, ?F2, ?F3; auto; fail).
  - intros d x g. rewrite F2. apply i_all.
  - intros d x g. rewrite F1, F2, F3. apply i_rch.
Qed.

Section push.
  Context {h : heap} {R : nat -> list value} {P : nat -> list nat} {B : list (nat * nat)}.
  Context (I : Inv h R P B) (vs : list value) (Hvs : forall v, In v vs -> gv h (top h) v).
  Let h' := push h false.
  Let d := S (top h).

  Lemma pu_lists l : lists h' l = lists h l.
  Proof.
    destruct (i_above _ _ _ _ I d) as [H1 [H2 H3]]; [unfold d; lia|].
    unfold h', push. cbn [lists set_top set_lists set_frames]. unfold updl.
    fold d. destruct (lid_eq_dec l (All d)) as [->|]; [auto|].
    destruct (lid_eq_dec l (Mrk d)) as [->|]; [auto|].
    destruct (lid_eq_dec l (Unm d)) as [->|]; auto.
  Qed.
  Lemma pu_inl l x : inl h' l x <-> inl h l x.
  Proof. unfold inl. rewrite pu_lists. reflexivity. Qed.
  Lemma pu_frames e : e <= top h -> frames h' e = frames h e.
  Proof. intros He. unfold h', push. cbn. unfold upd. destruct (Nat.eq_dec e (S (top h))); [lia|auto]. Qed.
  Lemma pu_frame_d : frames h' d = mk_frame 0 (max_gen (frames h (top h))) (max_gen (frames h (top h))) (S (max_gen (frames h (top h)))).
  Proof. unfold h', push, d. cbn. unfold upd. destruct (Nat.eq_dec (S (top h)) (S (top h))); [auto|lia]. Qed.
  Lemma pu_Uf e x : Uf h' e x <-> Uf h e x.
  Proof. unfold Uf, ingc. rewrite !pu_inl. reflexivity. Qed.
  Lemma pu_Mf e x : Mf h' e x <-> Mf h e x.
  Proof. unfold Mf. rewrite !pu_inl. reflexivity. Qed.
  Lemma pu_rchf e x : rchf h' e x <-> rchf h e x.
  Proof.
    unfold rchf. apply rch_iff; [apply pu_Mf|apply pu_Uf|]. intros o y. reflexivity.
  Qed.
  Lemma pu_gpr x : gpr h' x <-> gpr h x.
  Proof. unfold gpr. apply rch_iff; [intros; apply pu_inl..|]. intros o y. reflexivity. Qed.
  Lemma pu_Cf e x : Cf h' e x <-> Cf h e x.
  Proof. unfold Cf. rewrite pu_Uf, pu_rchf. reflexivity. Qed.
  Lemma pu_Cg x : Cg h' x <-> Cg h x.
  Proof. unfold Cg. rewrite pu_inl, pu_gpr. reflexivity. Qed.
  Lemma pu_fr x e : fr h' x e <-> fr h x e.
  Proof. unfold fr. rewrite !pu_inl. reflexivity. Qed.
  Lemma pu_frle x e : frle h' x e <-> frle h x e.
  Proof. unfold frle. split; intros [e' [H1 H2]]; exists e'; rewrite pu_fr in *; auto. Qed.
  Lemma pu_nf x : nf h' x <-> nf h x.
  Proof. unfold nf. rewrite pu_inl. reflexivity. Qed.
  Lemma pu_noU x : ~ Uf h d x.
  Proof.
    destruct (i_above _ _ _ _ I d) as [H1 [H2 H3]]; [unfold d; lia|].
    unfold Uf, inl. rewrite H1. pose proof (i_gf _ _ _ _ I). intros [[]|[_ [H0 _]]]. unfold d in *. lia.
  Qed.
  Lemma pu_noM x : ~ Mf h d x.
  Proof.
    destruct (i_above _ _ _ _ I d) as [H1 [H2 H3]]; [unfold d; lia|].
    unfold Mf, inl. rewrite H2. pose proof (i_gf _ _ _ _ I). intros [[]|[_ [H0 _]]]. unfold d in *. lia.
  Qed.
  Lemma pu_norch x : ~ rchf h d x.
  Proof. intros H. apply rch_in in H. destruct H; [eapply pu_noM|eapply pu_noU]; eauto. Qed.
  Lemma pu_le e : e <= top h' -> e <= top h \/ e = d.
  Proof. unfold h', push, d. cbn. lia. Qed.

  Lemma push_inv : Inv h' (upd R d vs) (upd P d []) B.
  Proof.
    assert (Ht : top h' = d) by reflexivity.
    assert (Hmem : mem h' = mem h) by reflexivity.
    assert (Hgc : gc h' = gc h) by reflexivity.
    pose proof (i_gf _ _ _ _ I) as Hgf.
    constructor; [constructor|..].
    - intros l l' x. rewrite !pu_inl. apply (i_uniq _ _ _ _ I).
    - intros l. rewrite pu_lists. apply (i_nodup _ _ _ _ I).
    - intros e He. rewrite !pu_lists. apply (i_above _ _ _ _ I). rewrite Ht in He. unfold d in *. lia.
    - intros l x. rewrite pu_inl. apply (i_gcobj _ _ _ _ I).
    - intros x Hx. destruct (i_listed _ _ _ _ I _ Hx) as [l Hl]. exists l. rewrite pu_inl. auto.
    - intros x ob. apply (i_fresh _ _ _ _ I).
    - intros x ob g e H1 H2. destruct (i_stack _ _ _ _ I x ob g e H1 H2) as [H3 H4].
      split; [rewrite Ht; unfold d; lia|exact H4].
    - intros x ob. rewrite pu_nf. apply (i_uninit _ _ _ _ I).
    - intros b e Hb. rewrite pu_inl. apply (i_B _ _ _ _ I). auto.
    - intros o x Ho He. rewrite pu_nf in *. destruct (i_edge _ _ _ _ I o x Ho He) as [H1 H2].
      split; auto. intros e. rewrite pu_fr, pu_frle. apply H2.
    - intros o x Ho. rewrite pu_nf in Ho. apply (i_gcedge _ _ _ _ I); auto.
    - intros o ob g e. apply (i_gcptr _ _ _ _ I).
    - intros e x He Hx. rewrite pu_nf, pu_frle. destruct (pu_le _ He) as [He'| ->].
      + unfold upd in Hx. destruct (Nat.eq_dec e d); [unfold d in *; lia|]. eapply i_root; eauto.
      + unfold upd in Hx. destruct (Nat.eq_dec d d); [|lia]. destruct (Hvs _ Hx) as [H1 [H2 _]].
        split; auto. eapply frle_le; eauto. unfold d; lia.
    - intros e He. unfold upd. destruct (Nat.eq_dec e d) as [->|Hn].
      + intros Hx. apply (Hvs _ Hx).
      + destruct (pu_le _ He) as [He'| ->]; [|congruence]. eapply i_rootu; eauto.
    - intros e r He. unfold upd. destruct (Nat.eq_dec e d) as [->|Hn]; [intros []|].
      destruct (pu_le _ He) as [He'| ->]; [|congruence]. rewrite pu_inl. apply (i_pend _ _ _ _ I); auto.
    - intros e He. destruct (pu_le _ He) as [He'| ->].
      + rewrite pu_frames by auto. apply (i_gens _ _ _ _ I); auto.
      + rewrite pu_frame_d. cbn. lia.
    - intros e He. destruct (pu_le _ He) as [He'|Heq].
      + rewrite !pu_frames by lia. apply (i_chain _ _ _ _ I); auto.
      + rewrite Heq, pu_frame_d. injection Heq as ->. rewrite pu_frames by auto. cbn. lia.
    - intros e x g He. rewrite pu_inl. intros Hx Hg. destruct (pu_le _ He) as [He'| ->].
      + rewrite pu_frames by auto. eapply i_all; eauto.
      + exfalso. destruct (i_above _ _ _ _ I d) as [_ [_ H3]]; [unfold d; lia|].
        unfold inl in Hx. rewrite H3 in Hx. destruct Hx.
    - intros e x g He. rewrite pu_rchf. intros Hx Hg. destruct (pu_le _ He) as [He'| ->].
      + rewrite pu_frames by auto. eapply i_rch; eauto.
      + exfalso. eapply pu_norch; eauto.
    - intros x g. rewrite pu_gpr. apply (i_gpr _ _ _ _ I).
    - intros o x. rewrite pu_gpr. unfold ingc. rewrite !pu_inl. apply (i_gout _ _ _ _ I).
    - intros x g. rewrite pu_rchf. unfold ingc. rewrite !pu_inl. apply (i_g3 _ _ _ _ I).
    - intros e o x He. rewrite pu_nf, !pu_Cf. intros Ho HC Hx. destruct (pu_le _ He) as [He'| ->].
      + eapply i_T; eauto.
      + intros Hu. exfalso. eapply pu_noU; eauto.
    - intros e e' x He He' Hx. rewrite pu_Cf. destruct (pu_le _ He) as [He1| ->].
      2:{ intros Hu. exfalso. eapply pu_noU; eauto. }
      unfold upd in Hx. destruct (Nat.eq_dec e' d) as [->|Hn].
      + destruct (Hvs _ Hx) as [_ [_ [H _]]]. auto.
      + destruct (pu_le _ He') as [He2| ->]; [|congruence]. eapply i_Troot; eauto.
    - intros o x. rewrite pu_nf, !pu_Cg. apply (i_Tg _ _ _ _ I).
    - intros e x He Hx. rewrite pu_Cg. unfold upd in Hx. destruct (Nat.eq_dec e d) as [->|Hn].
      + destruct (Hvs _ Hx) as [_ [_ [_ H]]]. auto.
      + destruct (pu_le _ He) as [He2| ->]; [|congruence]. eapply i_Tgroot; eauto.
    - rewrite Hgc, Ht. unfold d. lia.
    - apply (i_ggen _ _ _ _ I).
    - rewrite Hgc, pu_frames by auto. apply (i_gmax _ _ _ _ I).
    - rewrite Hgc, pu_frames by auto. apply (i_gmin _ _ _ _ I).
    - rewrite Hgc, pu_frames by auto. apply (i_nint _ _ _ _ I).
    - rewrite Hgc, pu_frames by auto. intros H. destruct (i_int _ _ _ _ I H) as [H1 [H2 H3]].
      split; auto. split; auto. intros x Hx. rewrite !pu_inl. auto.
    - rewrite Hgc, Ht. intros n Hn. pose proof (i_next _ _ _ _ I n Hn). unfold d; lia.
    - rewrite Hgc. intros e x He. rewrite !pu_inl. intros Hx. destruct (pu_le _ He) as [He2| ->].
      + eapply i_work; eauto.
      + exfalso. destruct (i_above _ _ _ _ I d) as [H1 [H2 _]]; [unfold d; lia|].
        unfold inl in Hx. rewrite H1, H2 in Hx. destruct Hx as [[]|[]].
  Qed.
End push.
