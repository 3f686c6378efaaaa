(** * Starting an older generation, and the end of a cycle. *)
From Coq Require Import List Arith Bool Lia Sorted.
Import ListNotations.
From Verif Require Import TypeHeapModel TypeHeapInv TypeHeapSem TypeHeapStep.

Lemma sorted_mono h h' l :
  (forall g, In g l -> gidof h' g = gidof h g) ->
  StronglySorted (older h) l -> StronglySorted (older h') l.
Proof.
  intros E St; induction St as [|a l Sl IH F]; constructor.
  - apply IH; intros; apply E; right; assumption.
  - rewrite Forall_forall in *; intros x Hx; destruct (F x Hx) as (n & q & E1 & E2 & L).
    exists n, q; rewrite !E; auto; [right; assumption|left; reflexivity].
Qed.

(** ** [next_old] *)

Lemma next_old_inv h :
  INV h -> (forall y, cls h y <> Some MARK) ->
  exists h', next_old h = Some h' /\ INV h' /\ objs h' = objs h /\ nobjs h' = nobjs h /\
    (forall y, cls h' y = cls h y) /\
    (forall y, cls h' y <> gidof h' (old h')) /\
    (forall k, In k (allg h) -> gens h' k = gens h k) /\
    mark h' = mark h /\ gcs h' = gcs h /\ save h' = save h /\ new h' = new h /\
    next h' = next h /\ freel h' = freel h.
Proof.
  intros [W P SM] NM.
  destruct (old_gid h W) as (m & HO); destruct (gidof_gens _ _ _ HO) as (Og & HOg & IO).
  unfold next_old; rewrite HOg.
  destruct (gen_is_empty Og) eqn:EM.
  - exists h; split; [reflexivity|split; [constructor; assumption|]].
    repeat (split; [reflexivity|]). split; [|repeat split].
    rewrite HO; apply (gen_empty h (OLD m) (old h) Og W P (gen_of_old h _ _ W HO) HOg);
      unfold gen_is_empty in EM; destruct (g_roots Og), (g_non Og); congruence.
  - rewrite IO; eexists; split; [reflexivity|]; set (h' := MkHeap _ _ _ _ _ _ _ _ _ _ _).
    assert (FR : ~ In (ngens h) (allg h)) by (intro I; apply (wg_lt h W) in I; lia).
    assert (G1 : forall k, In k (allg h) -> gens h' k = gens h k).
    { intros k Hk; cbn; apply upd_other; intros ->; contradiction. }
    assert (G2 : gens h' (ngens h) = Some (empty_gen (OLD (S m)))) by (cbn; apply upd_same).
    assert (GD : forall k, k <> ngens h -> gidof h' k = gidof h k).
    { intros k Hk; unfold gidof; cbn; rewrite upd_other by assumption; reflexivity. }
    assert (AG : forall k, In k (allg h') <-> k = ngens h \/ In k (allg h)).
    { intro k; rewrite !allg_in; cbn; intuition congruence. }
    assert (NR : forall i g, In g (allg h) -> gidof h g = Some i -> gidof h' g = Some i).
    { intros i g I E; rewrite GD; [assumption|intros ->; contradiction]. }
    assert (OC : forall o b, objs h o = Some b -> o_gen b <> ngens h).
    { intros o b Ob; pose proof (wp_gen none h P _ _ Ob); lia. }
    assert (CL : forall y, cls h' y = cls h y).
    { intro y; unfold cls; cbn [objs h']; destruct (objs h y) as [b|] eqn:Ob; [|reflexivity].
      apply GD; eauto. }
    assert (GN : gidof h' (ngens h) = Some (OLD (S m))) by (unfold gidof; rewrite G2; reflexivity).
    assert (W' : WFG h').
    { constructor.
      - unfold allg; cbn.
        pose proof (wg_nodup h W) as ND; unfold allg in ND.
        inversion ND as [|? ? A1 ND1]; inversion ND1 as [|? ? A2 ND2]; inversion ND2 as [|? ? A3 ND3].
        cbn in A1, A2, A3.
        assert (F2 : ngens h <> mark h /\ ngens h <> save h /\ ngens h <> new h /\ ~ In (ngens h) (olds h ++ gcs h)).
        { rewrite allg_in in FR; rewrite in_app_iff; intuition congruence. }
        repeat constructor; cbn; intuition congruence.
      - intro k; rewrite AG; cbn [gens h']; unfold upd; destruct (k =? ngens h) eqn:T.
        + apply Nat.eqb_eq in T; split; [auto|discriminate].
        + apply Nat.eqb_neq in T; rewrite (wg_live h W); clear - T; tauto.
      - intros k I; apply AG in I; cbn [ngens h']; destruct I as [->|I]; [lia|apply (wg_lt h W) in I; lia].
      - discriminate.
      - apply (wg_gcs h W).
      - apply NR; [apply allg_in; auto|apply (wg_mark h W)].
      - apply NR; [apply allg_in; auto|apply (wg_save h W)].
      - apply NR; [apply allg_in; auto|apply (wg_new h W)].
      - intros g I; apply NR; [apply allg_in; auto|apply (wg_gc h W); assumption].
      - intros g [<-|I]; [eauto|]. destruct (wg_old h W _ I) as (n & E); exists n.
        apply NR; [apply allg_in; auto|assumption].
      - cbn [olds h']; constructor.
        + apply (sorted_mono h); [|apply (wg_sorted h W)].
          intros g I; apply GD; intros ->; apply FR, allg_in; auto.
        + apply Forall_forall; intros x Hx; destruct (wg_old h W _ Hx) as (n & E).
          destruct (old_max h W _ _ E) as (q & Eq_ & Lq).
          exists (S m), n; split; [assumption|split; [apply NR; [apply allg_in; auto|assumption]|]].
          assert (q = m) by congruence; lia.
      - cbn; destruct (wg_next h W) as [E|I]; auto. }
    assert (CN : forall k, canon h' k = canon h k) by reflexivity.
    assert (NG : forall o b, objs h o = Some b -> gens h' (o_gen b) = gens h (o_gen b)).
    { intros o b Ob; cbn; apply upd_other; eauto. }
    assert (GCN : forall k, canon h k = ngens h -> k = ngens h).
    { intros k E; unfold canon in E; destruct (mem k (gcs h)); [|assumption].
      exfalso; apply FR; rewrite <- E; apply allg_in; do 4 right; apply (gc_in h W). }
    assert (P' : WFP none h').
    { constructor; cbn [objs freel nobjs ngens h'].
      - intros g G o HG _; cbn in HG; unfold upd in HG; destruct (g =? ngens h) eqn:T.
        + inversion HG; subst G; cbn; split; [intros []|intros (b & Ob & R & K)].
          apply Nat.eqb_eq in T; rewrite CN, T in K; apply GCN in K; eapply OC; eauto.
        + apply (wp_roots none h P); [assumption|intros []].
      - intros g G o HG _; cbn in HG; unfold upd in HG; destruct (g =? ngens h) eqn:T.
        + inversion HG; subst G; cbn; split; [intros []|intros (b & Ob & R & K)].
          apply Nat.eqb_eq in T; rewrite CN, T in K; apply GCN in K; eapply OC; eauto.
        + apply (wp_non none h P); [assumption|intros []].
      - intros g G HG; cbn in HG; unfold upd in HG; destruct (g =? ngens h).
        + inversion HG; subst G; split; constructor.
        + apply (wp_nodup none h P _ _ HG).
      - intro o; rewrite (wp_free none h P); split; intros (b & Ob & E); exists b; split; auto.
        + rewrite (NG _ _ Ob); assumption.
        + rewrite <- (NG _ _ Ob); assumption.
      - intros o b Ob E; apply (wp_free_rc none h P _ _ Ob); rewrite <- (NG _ _ Ob); assumption.
      - apply (wp_free_nd none h P).
      - apply (wp_n none h P).
      - intros o b Ob; pose proof (wp_gen none h P _ _ Ob); lia. }
    assert (IN : In (next h) (allg h)).
    { apply allg_in; destruct (wg_next h W) as [<-|I]; auto. }
    assert (LN : forall n, lt_next h' n <-> lt_next h n).
    { intro n; unfold lt_next; cbn [next h']; rewrite GD; [tauto|intros E; rewrite E in IN; contradiction]. }
    assert (ED : forall a c, edge h' a c <-> edge h a c) by (intros; reflexivity).
    assert (S' : SEM h').
    { constructor.
      - intros x y c C E; rewrite CL in C; destruct (s1 h SM _ _ _ C E) as (d & Cd & D).
        exists d; rewrite CL; auto.
      - intros x y n C L E; rewrite CL in C; apply LN in L.
        destruct (s2 h SM _ _ _ C L E) as [(k & Ck & Lk)|(Ck & _)].
        + left; exists k; rewrite CL; auto.
        + exfalso; apply (NM y Ck).
      - intros g G n y HG IG L HY; apply LN in L; rewrite !CL in HY.
        destruct HY as [HY|(HY & _)]; [|exfalso; apply (NM y HY)].
        cbn in HG; unfold upd in HG; destruct (g =? ngens h) eqn:T.
        + inversion HG; subst G; cbn in IG; inversion IG; subst n.
          destruct (cls_inv _ _ _ HY) as (b & Ob & Gb).
          destruct (old_max h W _ _ Gb) as (q & Eq_ & Lq); exfalso.
          assert (q = m) by congruence; lia.
        + destruct (s3 h SM g G n y HG IG L (or_introl HY)) as (r & l & E1 & E2).
          exists r, l; split; [assumption|]; eapply reach_mono; [|exact E2]; intros a c; apply ED. }
    split; [constructor; assumption|].
    repeat (split; [reflexivity|]). split; [assumption|]. split; [|repeat split; try assumption].
    intro y; rewrite CL; change (old h') with (ngens h); rewrite GN; intro C.
    destruct (cls_inv _ _ _ C) as (b & Ob & Gb).
    destruct (old_max h W _ _ Gb) as (q & Eq_ & Lq); assert (q = m) by congruence; lia.
Qed.

(** ** Cutting the chain of generations *)

Lemma cut_some n l : In n l -> exists a b, cut n l = Some (a, b).
Proof.
  induction l as [|g l IH]; intros []; cbn.
  - subst; rewrite Nat.eqb_refl; eauto.
  - destruct (g =? n); [eauto|]. destruct (IH H) as (a & b & E); rewrite E; eauto.
Qed.

Lemma cut_spec n l : forall a b, cut n l = Some (a, b) ->
  exists a', a = a' ++ [n] /\ l = a ++ b.
Proof.
  induction l as [|g l IH]; intros a b E; cbn in E; [discriminate|].
  destruct (g =? n) eqn:T.
  - apply Nat.eqb_eq in T; inversion E; subst; exists []; auto.
  - destruct (cut n l) as [(a1 & b1)|]; [|discriminate]; inversion E; subst.
    destruct (IH _ _ eq_refl) as (a' & -> & ->); exists (g :: a'); auto.
Qed.

(** ** Merging the lists of the generations *)

Lemma merged_in gs f o l : forall acc,
  In o (merged gs f acc l) <-> In o acc \/ exists g G, In g l /\ gs g = Some G /\ In o (f G).
Proof.
  induction l as [|g l IH]; intro acc; cbn.
  - split; [auto|intros [?|(g & G & [] & _)]; assumption].
  - rewrite IH; clear IH; destruct (gs g) as [G|] eqn:HG.
    + rewrite in_app_iff; split.
      * intros [[I|I]|(k & K & Ik & HK & IK)]; eauto 8.
      * intros [I|(k & K & [->|Ik] & HK & IK)]; auto.
        -- left; left; congruence.
        -- right; eauto.
    + split.
      * intros [I|(k & K & Ik & HK & IK)]; eauto 8.
      * intros [I|(k & K & [->|Ik] & HK & IK)]; auto; [congruence|]. right; eauto.
Qed.

Lemma nodup_app_dj (a b : list nat) :
  NoDup a -> NoDup b -> (forall x, In x a -> In x b -> False) -> NoDup (a ++ b).
Proof.
  induction a as [|x a IH]; intros A B D; [assumption|]; cbn; inversion A; subst; constructor.
  - rewrite in_app_iff; intros [?|?]; [contradiction|apply (D x); [left; reflexivity|assumption]].
  - apply IH; auto; intros y Hy; apply D; right; assumption.
Qed.

Lemma merged_nodup gs f l : forall acc,
  NoDup acc -> NoDup l ->
  (forall g G, In g l -> gs g = Some G -> NoDup (f G)) ->
  (forall g G o, In g l -> gs g = Some G -> In o (f G) -> In o acc -> False) ->
  (forall g G k K o, In g l -> In k l -> gs g = Some G -> gs k = Some K ->
     In o (f G) -> In o (f K) -> g = k) ->
  NoDup (merged gs f acc l).
Proof.
  induction l as [|g l IH]; intros acc NA NL ND DA DD; cbn; [assumption|].
  inversion NL as [|? ? Ng Nl].
  apply IH; auto.
  - destruct (gs g) as [G|] eqn:HG; [|assumption].
    apply nodup_app_dj; auto.
    + eapply ND; [left; reflexivity|eassumption].
    + intros o A B; eapply DA; [left; reflexivity|eassumption..].
  - intros k K Ik; apply ND; right; assumption.
  - intros k K o Ik HK Io Ia; destruct (gs g) as [G|] eqn:HG.
    + apply in_app_iff in Ia; destruct Ia as [Ia|Ia].
      * assert (g = k) by (eapply (DD g G k K o); eauto; [left|right]; auto).
        subst; contradiction.
      * eapply DA; [right; eassumption|eassumption..].
    + eapply DA; [right; eassumption|eassumption..].
  - intros a A k K o Ia Ik; apply DD; right; assumption.
Qed.

Lemma nodup_app_inv (a b : list nat) :
  NoDup (a ++ b) -> NoDup a /\ NoDup b /\ (forall k, In k a -> In k b -> False).
Proof.
  induction a as [|x a IH]; cbn; intro N; [split; [constructor|split; [assumption|intros k []]]|].
  inversion N as [|? ? Na Nl]; destruct (IH Nl) as (A & B & C); split; [|split; [assumption|]].
  - constructor; [|assumption]; intro; apply Na, in_app_iff; auto.
  - intros k [->|I] J; [apply Na, in_app_iff; auto|eapply C; eauto].
Qed.

(** ** [end_cycle] *)

Lemma end_cycle_inv h :
  INV h -> (forall y, cls h y <> Some MARK) -> (forall y, cls h y <> Some SAVE) ->
  (forall y b, cls h y = Some GC -> objs h y = Some b -> o_rc b = 0) ->
  exists h', end_cycle h = Some h' /\ INV h' /\ objs h' = objs h /\ nobjs h' = nobjs h /\
    next h' = new h' /\
    (forall y, cls h' y = match cls h y with
                          | Some NEW => Some GC
                          | Some (OLD n) =>
                              match gidof h (next h) with
                              | Some (OLD m) => if n <? m then Some (OLD n) else Some GC
                              | _ => Some (OLD n)
                              end
                          | _ => None
                          end) /\
    (forall y, In y (freel h') <-> In y (freel h) \/ cls h y = Some GC).
Proof.
  intros [W P SM] NM NS NR.
  destruct (gens_some h W (gc h)) as (G & HG).
  { apply allg_in; do 4 right; apply (gc_in h W). }
  destruct (gens_some h W (new h)) as (N & HN).
  { apply allg_in; auto. }
  destruct (cut_some (next h) (new h :: olds h) (wg_next h W)) as (taken & rest & CUT).
  unfold end_cycle; rewrite HG, HN, CUT.
  destruct (cut_spec _ _ _ _ CUT) as (pre & EPre & ESplit).
  assert (EL : exists t, taken = new h :: t /\ olds h = t ++ rest).
  { destruct taken as [|k t]; [destruct pre; discriminate|].
    cbn in ESplit; inversion ESplit; eauto. }
  destruct EL as (t & ET & EO).
  (* facts about the lists of generations *)
  pose proof (wg_nodup h W) as ND; unfold allg in ND.
  apply NoDup_cons_iff in ND; destruct ND as (A1 & ND1).
  apply NoDup_cons_iff in ND1; destruct ND1 as (A2 & ND2).
  apply NoDup_cons_iff in ND2; destruct ND2 as (A3 & ND3).
  cbn in A1, A2, A3.
  destruct (nodup_app_inv _ _ ND3) as (NDO & NDG & DJ).
  pose proof NDO as NDO'; rewrite EO in NDO'.
  destruct (nodup_app_inv _ _ NDO') as (NDT & NDR & TR); clear NDO'.
  assert (IO : forall k, In k (olds h) <-> In k t \/ In k rest) by (intro; rewrite EO, in_app_iff; tauto).
  assert (A1' : mark h <> save h /\ mark h <> new h /\ ~ In (mark h) (olds h) /\ ~ In (mark h) (gcs h)).
  { rewrite in_app_iff in A1; intuition congruence. }
  assert (A2' : save h <> new h /\ ~ In (save h) (olds h) /\ ~ In (save h) (gcs h)).
  { rewrite in_app_iff in A2; intuition congruence. }
  assert (A3' : ~ In (new h) (olds h) /\ ~ In (new h) (gcs h)).
  { rewrite in_app_iff in A3; intuition congruence. }
  clear A1 A2 A3 ND3.
  assert (NMo : ~ In (mark h) (olds h)) by tauto.
  assert (NSo : ~ In (save h) (olds h)) by tauto.
  assert (NNo : ~ In (new h) (olds h)) by tauto.
  assert (FRn : forall k, In k (allg h) -> k < ngens h) by apply (wg_lt h W).
  set (roots' := merged (gens h) g_roots (g_roots N) (tl taken)).
  set (non' := merged (gens h) g_non (g_non N) (tl taken)).
  set (gens1 := fun k => if mem k (gcs h) then None
        else if k =? new h then Some (MkGen GC roots' non')
        else if mem k taken then Some (empty_gen GC)
        else gens h k).
  (* the result, uniformly *)
  set (e0 := match rest with [] => true | _ => false end).
  set (n2 := if e0 then S (ngens h) else ngens h).
  set (olds2 := if e0 then [(ngens h)] else rest).
  set (gens2 := if e0 then upd gens1 (ngens h) (Some (empty_gen (OLD 0))) else gens1).
  exists (MkHeap (upd gens2 n2 (Some (empty_gen NEW))) (S n2) (objs h) (nobjs h) olds2 (mark h) taken
                 (save h) n2 n2 (g_non G ++ freel h)).
  split.
  { unfold gens2, n2, olds2, e0; destruct rest; reflexivity. }
  set (h' := MkHeap _ _ _ _ _ _ _ _ _ _ _).
  assert (N2 : ngens h <= n2) by (unfold n2; destruct e0; lia).
  (* generations of the new heap *)
  assert (GL : forall k, k < ngens h -> gens h' k = gens1 k).
  { intros k Hk; cbn; rewrite upd_other by lia; unfold gens2; destruct e0; [|reflexivity].
    apply upd_other; lia. }
  assert (Gn2 : gens h' n2 = Some (empty_gen NEW)) by (cbn; apply upd_same).
  assert (Go' : e0 = true -> gens h' (ngens h) = Some (empty_gen (OLD 0))).
  { intro E; cbn; unfold gens2, n2; rewrite E; rewrite upd_other by lia; apply upd_same. }
  assert (GH : forall k, ngens h <= k -> k <> n2 -> (e0 = true -> k <> (ngens h)) -> gens h' k = None).
  { intros k Hk K1 K2; cbn; rewrite upd_other by assumption; unfold gens2.
    assert (Z : gens1 k = None).
    { unfold gens1; destruct (mem k (gcs h)) eqn:M1; [reflexivity|].
      destruct (k =? new h) eqn:T.
      - apply Nat.eqb_eq in T; subst; exfalso.
        assert (new h < ngens h) by (apply FRn, allg_in; auto); lia.
      - destruct (mem k taken) eqn:M2.
        + apply mem_in in M2; rewrite ET in M2; exfalso.
          assert (k < ngens h); [|lia]. apply FRn, allg_in; destruct M2 as [<-|M2]; auto.
          do 3 right; left; apply IO; auto.
        + destruct (gens h k) eqn:HK; [|reflexivity]; exfalso.
          assert (k < ngens h); [|lia]. apply FRn, (wg_live h W); congruence. }
    destruct e0; [rewrite upd_other by auto|]; exact Z. }
  assert (G1gc : forall k, In k (gcs h) -> gens h' k = None).
  { intros k I; rewrite GL by (apply FRn, allg_in; auto).
    unfold gens1; rewrite (proj2 (mem_in _ _) I); reflexivity. }
  assert (G1new : gens h' (new h) = Some (MkGen GC roots' non')).
  { rewrite GL by (apply FRn, allg_in; auto).
    unfold gens1; rewrite (proj2 (mem_nin _ _)) by tauto; rewrite Nat.eqb_refl; reflexivity. }
  assert (G1t : forall k, In k t -> gens h' k = Some (empty_gen GC)).
  { intros k I; assert (IK : In k (olds h)) by (apply IO; auto).
    rewrite GL by (apply FRn, allg_in; auto).
    unfold gens1; rewrite (proj2 (mem_nin _ _)) by (intro; eapply DJ; eauto).
    assert (T : (k =? new h) = false) by (apply Nat.eqb_neq; intros ->; tauto).
    rewrite T, (proj2 (mem_in _ _)); [reflexivity|rewrite ET; right; assumption]. }
  assert (G1r : forall k, (In k rest \/ k = mark h \/ k = save h) -> gens h' k = gens h k).
  { intros k I.
    assert (B : k < ngens h /\ ~ In k (gcs h) /\ k <> new h /\ ~ In k taken).
    { rewrite ET; cbn; destruct I as [I|[->| ->]].
      - assert (IK : In k (olds h)) by (apply IO; auto).
        split; [apply FRn, allg_in; auto|]. split; [intro; eapply DJ; eauto|].
        assert (k <> new h) by (intros ->; tauto).
        split; [assumption|]. intros [Q|Q]; [congruence|eapply TR; eauto].
      - split; [apply FRn, allg_in; auto|]. split; [tauto|].
        split; [tauto|]. intros [Q|Q]; [intuition congruence|]. apply NMo, IO; auto.
      - split; [apply FRn, allg_in; auto|]. split; [tauto|].
        split; [tauto|]. intros [Q|Q]; [intuition congruence|]. apply NSo, IO; auto. }
    destruct B as (B1 & B2 & B3 & B4); rewrite GL by assumption; unfold gens1.
    rewrite (proj2 (mem_nin _ _) B2), (proj2 (Nat.eqb_neq _ _) B3), (proj2 (mem_nin _ _) B4); reflexivity. }
  (* every generation of the new heap is one of these *)
  assert (GA : forall k K, gens h' k = Some K ->
     (k = new h /\ K = MkGen GC roots' non') \/
     (In k t /\ K = empty_gen GC) \/
     ((In k rest \/ k = mark h \/ k = save h) /\ gens h k = Some K) \/
     (k = n2 /\ K = empty_gen NEW) \/
     (e0 = true /\ k = (ngens h) /\ K = empty_gen (OLD 0))).
  { intros k K HK.
    destruct (Nat.eq_dec k n2) as [->|K1]; [rewrite Gn2 in HK; inversion HK; auto 8|].
    destruct (lt_dec k (ngens h)) as [Hlt|Hge].
    - assert (HK' : gens h k <> None \/ In k (gcs h)).
      { rewrite GL in HK by assumption; unfold gens1 in HK.
        destruct (mem k (gcs h)) eqn:M1; [discriminate|].
        destruct (k =? new h) eqn:T; [apply Nat.eqb_eq in T; subst; left; congruence|].
        destruct (mem k taken) eqn:M2; [|left; congruence].
        apply mem_in in M2; rewrite ET in M2; left; apply (wg_live h W), allg_in.
        destruct M2 as [<-|M2]; auto; do 3 right; left; apply IO; auto. }
      destruct HK' as [HK'|I]; [|rewrite G1gc in HK by assumption; discriminate].
      apply (wg_live h W), allg_in in HK'.
      destruct HK' as [E|[E|[E|[I|I]]]].
      + do 2 right; left; split; [auto|rewrite <- (G1r k); auto].
      + do 2 right; left; split; [auto|rewrite <- (G1r k); auto].
      + left; split; [assumption|]; rewrite E, G1new in HK; congruence.
      + apply IO in I; destruct I as [I|I].
        * right; left; split; [assumption|]; rewrite (G1t k I) in HK; congruence.
        * do 2 right; left; split; [auto|rewrite <- (G1r k); auto].
      + rewrite (G1gc k I) in HK; discriminate.
    - destruct e0 eqn:EE.
      + destruct (Nat.eq_dec k (ngens h)) as [->|K2].
        * rewrite (Go' eq_refl) in HK; do 4 right; split; [reflexivity|split; congruence].
        * rewrite GH in HK; [discriminate|lia|assumption|auto].
      + rewrite GH in HK; [discriminate|lia|assumption|discriminate]. }
  assert (RE : e0 = true -> rest = []) by (unfold e0; destruct rest; [auto|discriminate]).
  assert (RN : e0 = false -> rest <> []) by (unfold e0; destruct rest; [discriminate|discriminate]).
  (* ids *)
  assert (Inew : gidof h' (new h) = Some GC) by (unfold gidof; rewrite G1new; reflexivity).
  assert (It : forall k, In k t -> gidof h' k = Some GC) by (intros k I; unfold gidof; rewrite (G1t k I); reflexivity).
  assert (Ir : forall k, (In k rest \/ k = mark h \/ k = save h) -> gidof h' k = gidof h k).
  { intros k I; unfold gidof; rewrite (G1r k I); reflexivity. }
  assert (In2 : gidof h' n2 = Some NEW) by (unfold gidof; rewrite Gn2; reflexivity).
  assert (Io' : e0 = true -> gidof h' (ngens h) = Some (OLD 0)) by (intro E; unfold gidof; rewrite (Go' E); reflexivity).
  assert (Lm : mark h < ngens h) by (apply FRn, allg_in; auto).
  assert (Ls : save h < ngens h) by (apply FRn, allg_in; auto).
  assert (Ln : new h < ngens h) by (apply FRn, allg_in; auto).
  assert (Lo : forall k, In k (olds h) -> k < ngens h) by (intros; apply FRn, allg_in; auto).
  assert (O2 : forall k, In k olds2 <-> (In k rest \/ e0 = true /\ k = (ngens h))).
  { intro k; unfold olds2; destruct e0 eqn:EE.
    - rewrite (RE eq_refl); cbn; intuition congruence.
    - intuition congruence. }
  assert (TK : forall k, In k taken <-> k = new h \/ In k t).
  { intro; rewrite ET; cbn; intuition congruence. }
  assert (W' : WFG h').
  { constructor.
    - unfold allg; cbn [mark save new olds gcs h'].
      assert (L2 : forall k, In k (olds2 ++ taken) -> k < n2).
      { intros k I; apply in_app_iff in I; destruct I as [I|I].
        - apply O2 in I; destruct I as [I|(E & ->)].
          + assert (k < ngens h) by (apply Lo, IO; auto); lia.
          + unfold n2; rewrite E; lia.
        - apply TK in I; destruct I as [->|I]; [lia|].
          assert (k < ngens h) by (apply Lo, IO; auto); lia. }
      assert (NT : forall k, k < ngens h -> In k (olds2 ++ taken) -> In k (new h :: olds h)).
      { intros k Hk I; apply in_app_iff in I; destruct I as [I|I].
        - apply O2 in I; destruct I as [I|(E & ->)]; [right; apply IO; auto|lia].
        - apply TK in I; destruct I as [->|I]; [left; reflexivity|right; apply IO; auto]. }
      constructor; [|constructor; [|constructor]].
      + intros [E|[E|I]]; [symmetry in E; tauto|lia|]. apply NT in I; [|assumption].
        destruct I as [E|I]; [intuition congruence|tauto].
      + intros [E|I]; [lia|]. apply NT in I; [|assumption].
        destruct I as [E|I]; [intuition congruence|tauto].
      + intro I; apply L2 in I; lia.
      + apply nodup_app_dj.
        * unfold olds2; destruct e0; [repeat constructor; cbn; tauto|assumption].
        * rewrite ET; constructor; [intro I; apply NNo, IO; auto|assumption].
        * intros k I J; apply O2 in I; apply TK in J; destruct I as [I|(E & ->)], J as [J|J].
          -- subst k; apply NNo, IO; auto.
          -- eapply TR; eauto.
          -- lia.
          -- assert ((ngens h) < ngens h) by (apply Lo, IO; auto); lia.
    - intro k; rewrite allg_in; cbn [mark save new olds gcs h']; rewrite O2, TK; split.
      + intro HK; destruct (gens h' k) as [K|] eqn:E; [|congruence].
        apply GA in E; intuition.
      + intros [->|[->|[->|[[I|(E & ->)]|[->|I]]]]].
        * rewrite (G1r (mark h)) by auto. apply (wg_live h W), allg_in; auto.
        * rewrite (G1r (save h)) by auto. apply (wg_live h W), allg_in; auto.
        * rewrite Gn2; discriminate.
        * rewrite (G1r k) by auto. apply (wg_live h W), allg_in. do 3 right; left; apply IO; auto.
        * rewrite (Go' E); discriminate.
        * rewrite G1new; discriminate.
        * rewrite (G1t k I); discriminate.
    - intros k I; apply allg_in in I; cbn [mark save new olds gcs ngens h'] in *.
      rewrite O2, TK in I. destruct I as [->|[->|[->|[[I|(E & ->)]|[->|I]]]]]; try lia.
      + assert (k < ngens h) by (apply Lo, IO; auto); lia.
      + assert (k < ngens h) by (apply Lo, IO; auto); lia.
    - cbn; unfold olds2; destruct e0; [discriminate|auto].
    - cbn; rewrite ET; discriminate.
    - cbn [mark h']; rewrite Ir by auto; apply (wg_mark h W).
    - cbn [save h']; rewrite Ir by auto; apply (wg_save h W).
    - exact In2.
    - intros k I; cbn in I; apply TK in I; destruct I as [->|I]; auto.
    - intros k I; cbn in I; apply O2 in I; destruct I as [I|(E & ->)].
      + rewrite Ir by auto; apply (wg_old h W), IO; auto.
      + eauto.
    - cbn [olds h']; unfold olds2; destruct e0; [repeat constructor|].
      pose proof (wg_sorted h W) as St; rewrite EO in St.
      assert (Sr : StronglySorted (older h) rest).
      { clear - St; induction t as [|a l IH]; [assumption|apply IH; inversion St; assumption]. }
      apply (sorted_mono h); [|assumption]. intros g I; apply Ir; auto.
    - left; reflexivity. }
  (* placement *)
  assert (CH : forall k, In k taken -> canon h' k = new h).
  { intros k I; unfold canon; cbn [gcs h']; rewrite (proj2 (mem_in _ _) I).
    unfold gc; cbn [gcs h']; rewrite ET; reflexivity. }
  assert (CN : forall k, ~ In k taken -> canon h' k = k).
  { intros k I; unfold canon; cbn [gcs h']; rewrite (proj2 (mem_nin _ _) I); reflexivity. }
  assert (CO : forall k g, In g (new h :: olds h) \/ g = mark h \/ g = save h -> (canon h k = g <-> k = g)).
  { intros k g I.
    assert (NG : ~ In g (gcs h)) by (destruct I as [[<-|I]|[->| ->]]; try tauto; intro; eapply DJ; eauto).
    unfold canon; destruct (mem k (gcs h)) eqn:M1.
    - apply mem_in in M1; split; [|intros ->; contradiction].
      intros <-; exfalso; apply NG, (gc_in h W).
    - tauto. }
  assert (CO1 : forall k g, canon h k = g -> In g (new h :: olds h) \/ g = mark h \/ g = save h -> k = g).
  { intros k g E I; apply CO; assumption. }
  assert (PL : forall (f : gen -> list nat) (q : obj -> Prop) g0,
     (forall g K o, gens h g = Some K -> (In o (f K) <-> exists b, objs h o = Some b /\ q b /\ canon h (o_gen b) = g)) ->
     g0 = MkGen GC roots' non' -> f g0 = merged (gens h) f (f N) (tl taken) ->
     (forall i, f (empty_gen i) = []) ->
     forall g K o, gens h' g = Some K ->
       (In o (f K) <-> exists b, objs h o = Some b /\ q b /\ canon h' (o_gen b) = g)).
  { intros f q g0 HP E0 EF EE g K o HK.
    destruct (GA g K HK) as [(-> & ->)|[(I & ->)|[(I & HK0)|[(-> & ->)|(E & -> & ->)]]]].
    - rewrite <- E0, EF, merged_in, ET; cbn [tl]; split.
      + intros [I|(k & K1 & Ik & HK1 & I)].
        * apply (HP _ _ _ HN) in I; destruct I as (b & Ob & Qb & C); exists b; split; [assumption|split; [assumption|]].
          apply CO1 in C; [|left; left; reflexivity]; rewrite C; apply CH, TK; auto.
        * apply (HP _ _ _ HK1) in I; destruct I as (b & Ob & Qb & C); exists b; split; [assumption|split; [assumption|]].
          apply CO1 in C; [|left; right; apply IO; auto]; rewrite C; apply CH, TK; auto.
      + intros (b & Ob & Qb & C).
        destruct (in_dec Nat.eq_dec (o_gen b) taken) as [I|I].
        * apply TK in I; destruct I as [E|I].
          -- left; apply (HP _ _ _ HN); exists b; split; [assumption|split; [assumption|]].
             apply (proj2 (CO _ _ (or_introl (or_introl eq_refl)))); assumption.
          -- right; destruct (gens_some h W (o_gen b)) as (K1 & HK1).
             { apply allg_in; do 3 right; left; apply IO; auto. }
             exists (o_gen b), K1; split; [assumption|split; [assumption|]].
             apply (HP _ _ _ HK1); exists b; split; [assumption|split; [assumption|]].
             apply (proj2 (CO _ _ (or_introl (or_intror (proj2 (IO _) (or_introl I)))))); reflexivity.
        * rewrite CN in C by assumption; exfalso; apply I, TK; auto.
    - rewrite EE; split; [intros []|]. intros (b & Ob & Qb & C).
      destruct (in_dec Nat.eq_dec (o_gen b) taken) as [J|J].
      + rewrite CH in C by assumption; subst g; apply NNo, IO; auto.
      + rewrite CN in C by assumption; apply J, TK; rewrite C; auto.
    - rewrite (HP _ _ _ HK0).
      assert (IG : In g (new h :: olds h) \/ g = mark h \/ g = save h).
      { destruct I as [I|I]; [left; right; apply IO; auto|auto]. }
      assert (NT : ~ In g taken).
      { rewrite TK; intros [J|J]; destruct I as [I|[I|I]]; subst;
          try (apply NNo, IO; auto; fail); try (intuition congruence); try (eapply TR; eauto; fail).
        - apply NMo, IO; auto.
        - apply NSo, IO; auto. }
      assert (EQ : forall k, canon h k = g <-> canon h' k = g).
      { intro k; rewrite CO by assumption; destruct (in_dec Nat.eq_dec k taken) as [J|J].
        - rewrite CH by assumption; split; intros <-; exfalso; [contradiction|apply NT, TK; auto].
        - rewrite CN by assumption; tauto. }
      split; intros (b & Ob & Qb & C); exists b; (split; [assumption|split; [assumption|]]); apply EQ; assumption.
    - rewrite EE; split; [intros []|]. intros (b & Ob & Qb & C).
      pose proof (wp_gen none h P _ _ Ob) as Lb.
      destruct (in_dec Nat.eq_dec (o_gen b) taken) as [J|J].
      + rewrite CH in C by assumption; lia.
      + rewrite CN in C by assumption; lia.
    - rewrite EE; split; [intros []|]. intros (b & Ob & Qb & C).
      pose proof (wp_gen none h P _ _ Ob) as Lb.
      destruct (in_dec Nat.eq_dec (o_gen b) taken) as [J|J].
      + rewrite CH in C by assumption; lia.
      + rewrite CN in C by assumption; lia. }
  assert (PN : forall f : gen -> list nat,
     (forall i, f (empty_gen i) = []) ->
     (forall g K, gens h g = Some K -> NoDup (f K)) ->
     (forall g K k K' o, gens h g = Some K -> gens h k = Some K' -> In o (f K) -> In o (f K') -> g = k) ->
     NoDup (merged (gens h) f (f N) (tl taken))).
  { intros f EE HN1 HN2; rewrite ET; cbn [tl]; apply merged_nodup; [|assumption| | |].
    - eapply HN1; eassumption.
    - intros; eapply HN1; eassumption.
    - intros g K o Ig HK Io In0. assert (g = new h) by (eapply HN2; eassumption).
      subst g; apply NNo, IO; auto.
    - intros; eapply HN2; eassumption. }
  assert (ON : forall o b, objs h o = Some b -> (gens h' (o_gen b) = None <-> In (o_gen b) (gcs h) \/ gens h (o_gen b) = None)).
  { intros o b Ob; pose proof (wp_gen none h P _ _ Ob) as Lb; split.
    - intro E; rewrite GL in E by assumption; unfold gens1 in E.
      destruct (mem (o_gen b) (gcs h)) eqn:M1; [left; apply mem_in; assumption|].
      destruct (o_gen b =? new h); [discriminate|]; destruct (mem (o_gen b) taken); [discriminate|auto].
    - intros [I|E]; [apply G1gc; assumption|].
      destruct (gens h' (o_gen b)) as [K|] eqn:HK; [exfalso|reflexivity].
      apply GA in HK; destruct HK as [(Q & _)|[(I & _)|[(I & Q)|[(Q & _)|(_ & Q & _)]]]].
      + rewrite Q, HN in E; discriminate.
      + revert E; apply (wg_live h W), allg_in; do 3 right; left; apply IO; auto.
      + congruence.
      + lia.
      + lia. }
  assert (GCC : forall o, cls h o = Some GC <-> exists b, objs h o = Some b /\ In (o_gen b) (gcs h)).
  { intro o; split.
    - intro C; destruct (cls_inv _ _ _ C) as (b & Ob & Gb); exists b; split; [assumption|apply (gid_gc h W), Gb].
    - intros (b & Ob & I); unfold cls; rewrite Ob; apply (gid_gc h W), I. }
  assert (GNN : forall o, In o (g_non G) <-> cls h o = Some GC).
  { intro o; rewrite (wp_non none h P _ _ o HG) by (intros []); rewrite GCC; split.
    - intros (b & Ob & R & C); exists b; split; [assumption|].
      unfold canon in C; destruct (mem (o_gen b) (gcs h)) eqn:M1; [apply mem_in; assumption|].
      rewrite C; apply (gc_in h W).
    - intros (b & Ob & I); exists b; split; [assumption|].
      assert (C : cls h o = Some GC) by (apply GCC; eauto).
      split; [eapply NR; eassumption|]. unfold canon; rewrite (proj2 (mem_in _ _) I); reflexivity. }
  assert (P' : WFP none h').
  { constructor; cbn [objs freel nobjs ngens h'].
    - intros g K o HK _.
      apply (PL g_roots (fun b => o_rc b <> 0) (MkGen GC roots' non')); try reflexivity; try assumption.
      intros; apply (wp_roots none h P); [assumption|intros []].
    - intros g K o HK _.
      apply (PL g_non (fun b => o_rc b = 0) (MkGen GC roots' non')); try reflexivity; try assumption.
      intros; apply (wp_non none h P); [assumption|intros []].
    - intros g K HK.
      destruct (GA g K HK) as [(-> & ->)|[(I & ->)|[(I & HK0)|[(-> & ->)|(E & -> & ->)]]]];
        try (split; constructor).
      + split; [apply (PN g_roots)|apply (PN g_non)];
          [reflexivity|intros ? ? Q; apply (wp_nodup none h P _ _ Q)| |reflexivity|intros ? ? Q; apply (wp_nodup none h P _ _ Q)|].
        * intros g K0 k K' o H1' H2' I1 I2.
          apply (wp_roots none h P _ _ o H1') in I1; [|intros []]; apply (wp_roots none h P _ _ o H2') in I2; [|intros []].
          destruct I1 as (b1 & O1 & _ & C1), I2 as (b2 & O2' & _ & C2); congruence.
        * intros g K0 k K' o H1' H2' I1 I2.
          apply (wp_non none h P _ _ o H1') in I1; [|intros []]; apply (wp_non none h P _ _ o H2') in I2; [|intros []].
          destruct I1 as (b1 & O1 & _ & C1), I2 as (b2 & O2' & _ & C2); congruence.
      + apply (wp_nodup none h P _ _ HK0).
    - intro o; rewrite in_app_iff, GNN, (wp_free none h P), GCC; split.
      + intros [(b & Ob & I)|(b & Ob & E)]; exists b; (split; [assumption|]); apply (ON _ _ Ob); auto.
      + intros (b & Ob & E); apply (ON _ _ Ob) in E; destruct E; eauto.
    - intros o b Ob E; apply (ON _ _ Ob) in E; destruct E as [I|E].
      + eapply (NR o); [apply GCC; eauto|assumption].
      + apply (wp_free_rc none h P _ _ Ob E).
    - apply nodup_app_dj; [apply (wp_nodup none h P _ _ HG)|apply (wp_free_nd none h P)|].
      intros o I J; apply GNN, GCC in I; apply (wp_free none h P) in J.
      destruct I as (b & Ob & I), J as (b' & Ob' & E); assert (b' = b) by congruence; subst b'.
      revert E; apply (wg_live h W), allg_in; auto.
    - apply (wp_n none h P).
    - intros o b Ob; pose proof (wp_gen none h P _ _ Ob); lia. }
  (* which older generations are kept *)
  assert (KEEP : forall k n, In k (olds h) -> gidof h k = Some (OLD n) ->
     match gidof h (next h) with
     | Some (OLD m) => (n < m -> In k rest) /\ (~ n < m -> In k t)
     | _ => In k rest
     end).
  { intros k n Ik Gk; destruct (wg_next h W) as [E|E].
    - rewrite <- E, (wg_new h W).
      destruct pre as [|p pre].
      + rewrite ET in EPre; cbn in EPre; inversion EPre as [[Ep Et]]; rewrite EO, Et in Ik; exact Ik.
      + exfalso. rewrite ET in EPre; inversion EPre as [[Ep Et]].
        apply NNo, IO; left; rewrite Et, in_app_iff, E; right; left; reflexivity.
    - destruct (wg_old h W _ E) as (m & Em); rewrite Em.
      assert (ELt : exists t', t = t' ++ [next h]).
      { rewrite ET in EPre; destruct pre as [|p pre]; inversion EPre as [[Ep Et]].
        - exfalso; apply NNo; rewrite Ep; assumption.
        - eauto. }
      destruct ELt as (t' & Et').
      pose proof (wg_sorted h W) as St; rewrite EO, Et', <- app_assoc in St; cbn in St.
      assert (Q1 : forall a, In a t' -> older h a (next h)).
      { clear - St; induction t' as [|z l IH]; intros a []; cbn in St; inversion St as [|? ? Sl F]; subst.
        - rewrite Forall_forall in F; apply F, in_app_iff; right; left; reflexivity.
        - apply IH; assumption. }
      assert (Q2 : forall a, In a rest -> older h (next h) a).
      { clear - St; induction t' as [|z l IH]; intros a Ia; cbn in St; inversion St as [|? ? Sl F]; subst.
        - rewrite Forall_forall in F; apply F; assumption.
        - apply IH; assumption. }
      apply IO in Ik; split; intro L.
      + destruct Ik as [Ik|Ik]; [|assumption]; exfalso.
        rewrite Et', in_app_iff in Ik; destruct Ik as [Ik|[<-|[]]].
        * destruct (Q1 _ Ik) as (p & q & Ep & Eq_ & Lq).
          assert (p = n) by congruence; assert (q = m) by congruence; lia.
        * assert (n = m) by congruence; lia.
      + destruct Ik as [Ik|Ik]; [assumption|]; exfalso.
        destruct (Q2 _ Ik) as (p & q & Ep & Eq_ & Lq).
        assert (p = m) by congruence; assert (q = n) by congruence; lia. }
  assert (CL : forall y, cls h' y = match cls h y with
                          | Some NEW => Some GC
                          | Some (OLD n) =>
                              match gidof h (next h) with
                              | Some (OLD m) => if n <? m then Some (OLD n) else Some GC
                              | _ => Some (OLD n)
                              end
                          | _ => None
                          end).
  { intro y; destruct (cls h y) as [i|] eqn:Cy.
    - destruct (cls_inv _ _ _ Cy) as (b & Ob & Gb); unfold cls; cbn [objs h']; rewrite Ob.
      destruct i.
      + assert (I : In (o_gen b) (olds h)) by (apply (gid_old h W); eauto).
        pose proof (KEEP _ _ I Gb) as K.
        destruct (next_gid h W) as [E|(m & E)]; rewrite E in *.
        * rewrite Ir by auto; assumption.
        * destruct (n <? m) eqn:T; [apply Nat.ltb_lt in T|apply Nat.ltb_ge in T].
          -- rewrite Ir by (left; apply K; assumption); assumption.
          -- apply It, K; lia.
      + unfold gidof; rewrite G1gc; [reflexivity|apply (gid_gc h W), Gb].
      + exfalso; apply (NM y Cy).
      + exfalso; apply (NS y Cy).
      + apply (gid_new h W) in Gb; rewrite Gb; exact Inew.
    - unfold cls in *; cbn [objs h']; destruct (objs h y) as [b|] eqn:Ob; [|reflexivity].
      unfold gidof in *; destruct (gens h' (o_gen b)) as [K|] eqn:HK; [|reflexivity].
      exfalso; assert (E : gens h (o_gen b) = None) by (destruct (gens h (o_gen b)); congruence).
      assert (X : gens h' (o_gen b) = None) by (apply (ON _ _ Ob); auto); congruence. }
  assert (NX : forall n, lt_next h' n).
  { intro n; unfold lt_next; change (next h') with n2; rewrite In2; exact I. }
  assert (LT : forall n, lt_next h n <-> match gidof h (next h) with Some (OLD m) => n < m | _ => True end).
  { intro n; unfold lt_next; destruct (next_gid h W) as [E|(m & E)]; rewrite E; tauto. }
  (* an old object that is kept *)
  assert (CK : forall y n, cls h' y = Some (OLD n) -> cls h y = Some (OLD n) /\ lt_next h n).
  { intros y n C; rewrite CL in C; rewrite LT; destruct (cls h y) as [[k| | | |]|]; try discriminate.
    destruct (gidof h (next h)) as [[m| | | |]|]; try (inversion C; subst; auto).
    destruct (k <? m) eqn:T; inversion C; subst; apply Nat.ltb_lt in T; auto. }
  assert (CK' : forall y n, cls h y = Some (OLD n) -> lt_next h n -> cls h' y = Some (OLD n)).
  { intros y n C L; rewrite CL, C; rewrite LT in L; destruct (gidof h (next h)) as [[m| | | |]|]; try reflexivity.
    apply Nat.ltb_lt in L; rewrite L; reflexivity. }
  assert (CS : forall y, (exists n, cls h y = Some (OLD n)) \/ cls h y = Some NEW -> exists d, cls h' y = Some d).
  { intros y [(n & C)|C]; rewrite CL, C; [|eauto].
    destruct (gidof h (next h)) as [[m| | | |]|]; eauto; destruct (n <? m); eauto. }
  assert (S' : SEM h').
  { constructor.
    - intros x y c C E; change (edge h x y) in E.
      assert (Cx : exists c0, cls h x = Some c0 /\ (c0 = NEW \/ exists n, c0 = OLD n)).
      { rewrite CL in C; destruct (cls h x) as [[]|]; try discriminate; eauto. }
      destruct Cx as (c0 & Cx & Dx).
      destruct (s1 h SM _ _ _ Cx E) as (d & Cy & D).
      assert (CY : (exists n, cls h y = Some (OLD n)) \/ cls h y = Some NEW).
      { destruct d; eauto; exfalso; [apply D; auto|apply (NM y Cy)|apply (NS y Cy)]. }
      destruct (CS y CY) as (d' & Cy'); exists d'; split; [assumption|].
      intros [->|(n & ->)].
      + exfalso; rewrite CL in C; destruct (cls h x) as [[k| | | |]|]; try discriminate.
        destruct (gidof h (next h)) as [[m| | | |]|]; try discriminate; destruct (k <? m); discriminate.
      + destruct (CK _ _ C) as (C2 & L).
        destruct (s2 h SM _ _ _ C2 L E) as [(m & Cm & Lm')|(Cm & _)]; [|exfalso; apply (NM y Cm)].
        assert (L' : lt_next h m) by (rewrite LT in *; destruct (gidof h (next h)) as [[]|]; auto; lia).
        rewrite (CK' _ _ Cm L') in Cy'; inversion Cy'; discriminate.
    - intros x y n C _ E; change (edge h x y) in E; left.
      destruct (CK _ _ C) as (C2 & L).
      destruct (s2 h SM _ _ _ C2 L E) as [(m & Cm & Lm')|(Cm & _)]; [|exfalso; apply (NM y Cm)].
      assert (L' : lt_next h m) by (rewrite LT in *; destruct (gidof h (next h)) as [[]|]; auto; lia).
      exists m; split; [apply CK'; assumption|assumption].
    - intros g K n y HK IK _ HY.
      destruct HY as [HY|(HY & _)].
      2:{ exfalso; rewrite CL in HY; destruct (cls h y) as [[k| | | |]|]; try discriminate.
          destruct (gidof h (next h)) as [[m| | | |]|]; try discriminate; destruct (k <? m); discriminate. }
      destruct (CK _ _ HY) as (C2 & L).
      destruct (cls_inv _ _ _ HY) as (b & Ob & Gb).
      assert (EG : o_gen b = g).
      { eapply (old_eq h' W'); [exact Gb|]. rewrite (gens_gidof _ _ _ HK), IK; reflexivity. }
      destruct (GA g K HK) as [(Q & ->)|[(I & ->)|[(I & HK0)|[(Q & ->)|(E & Q & ->)]]]]; try discriminate.
      + destruct (s3 h SM g K n y HK0 IK L (or_introl C2)) as (r & l & E1 & E2).
        exists r, l; split; [assumption|]; eapply reach_mono; [|exact E2]; intros a c Q; exact Q.
      + exfalso; pose proof (wp_gen none h P _ _ Ob); lia. }
  split; [constructor; assumption|].
  split; [reflexivity|split; [reflexivity|split; [reflexivity|split; [exact CL|]]]].
  intro y; cbn [freel h']; rewrite in_app_iff, GNN; tauto.
Qed.
