(** * Reallocation copies values faithfully: the invariant that links a stack object to
    its GC copy. *)

From Coq Require Import Arith List Bool Lia.
From Verif Require Import GcModel GcInv GcStep GcAcct.
Import ListNotations.

(** [v'] is what GcRealloc returned, or would return, for [v]. *)
Definition tr (h : heap) (v v' : value) : Prop :=
  match v with
  | VObj o =>
    (exists ob g d, mem h o = Some ob /\ oloc ob = LStack (Some g) d /\ v' = VObj g) \/
    (o < fresh h /\ (forall d, ~ stackobj (mem h) o d) /\ v' = v)
  | VUninit => False
  | _ => v' = v
  end.

(** Stack objects, except those in [X], have faithful copies. *)
Definition copy_ok (X : list nat) (h : heap) : Prop :=
  forall x ob g d, mem h x = Some ob -> oloc ob = LStack (Some g) d ->
    g < fresh h /\ (forall d, ~ stackobj (mem h) g d) /\
    (~ In x X -> forall gb, mem h g = Some gb ->
       okind gb = okind ob /\ Forall2 (tr h) (ofields ob) (ofields gb)).

(** Existing objects keep their kind and fields; stack objects at most acquire a copy
    that did not exist before. *)
Record mono (h h' : heap) : Prop := {
  m_fresh : fresh h <= fresh h';
  m_stack : forall x ob g d, mem h x = Some ob -> oloc ob = LStack g d ->
    exists ob', mem h' x = Some ob' /\ okind ob' = okind ob /\ ofields ob' = ofields ob /\
      (oloc ob' = LStack g d \/ (g = None /\ exists g', oloc ob' = LStack (Some g') d /\ fresh h <= g'));
  m_old : forall x ob', x < fresh h -> mem h' x = Some ob' ->
    exists ob, mem h x = Some ob /\ okind ob' = okind ob /\ ofields ob' = ofields ob;
  m_back : forall x d, stackobj (mem h') x d -> stackobj (mem h) x d
}.

Lemma mono_refl h : mono h h.
Proof. constructor; eauto. intros x ob g d H1 H2. exists ob. auto. Qed.

Lemma mono_trans a b c : (forall x ob, mem b x = Some ob -> x < fresh b) -> mono a b -> mono b c -> mono a c.
Proof.
  intros Fr A B. constructor.
  - pose proof (m_fresh _ _ A). pose proof (m_fresh _ _ B). lia.
  - intros x ob g d H1 H2. destruct (m_stack _ _ A _ _ _ _ H1 H2) as [ob1 [M1 [K1 [F1 L1]]]].
    pose proof (m_fresh _ _ A).
    destruct L1 as [L1|[-> [g' [L1 G1]]]].
    + destruct (m_stack _ _ B _ _ _ _ M1 L1) as [ob2 [M2 [K2 [F2 L2]]]].
      exists ob2. split; [exact M2|]. split; [congruence|]. split; [congruence|].
      destruct L2 as [L2|[-> [g' [L2 G2]]]]; [auto|right]. split; [reflexivity|]. exists g'. split; [exact L2|lia].
    + destruct (m_stack _ _ B _ _ _ _ M1 L1) as [ob2 [M2 [K2 [F2 L2]]]].
      exists ob2. split; [exact M2|]. split; [congruence|]. split; [congruence|].
      destruct L2 as [L2|[E _]]; [|discriminate]. right. split; [reflexivity|]. exists g'. auto.
  - intros x ob' Hx Hm. pose proof (m_fresh _ _ A).
    destruct (m_old _ _ B x ob') as [ob1 [M1 [K1 F1]]]; [lia|exact Hm|].
    destruct (m_old _ _ A x ob1) as [ob0 [M0 [K0 F0]]]; auto. exists ob0. split; auto. split; congruence.
  - intros x d H. apply (m_back _ _ A), (m_back _ _ B), H.
Qed.

Lemma tr_mono h h' v v' : mono h h' -> tr h v v' -> tr h' v v'.
Proof.
  intros M. destruct v as [| |o|]; cbn; auto. intros [[ob [g [d [H1 [H2 H3]]]]]|[H1 [H2 H3]]].
  - left. destruct (m_stack _ _ M _ _ _ _ H1 H2) as [ob' [M' [_ [_ [L|[E _]]]]]]; [|discriminate].
    exists ob', g, d. auto.
  - right. pose proof (m_fresh _ _ M). split; [lia|]. split; [|auto].
    intros d Hs. eapply H2. eapply m_back; eauto.
Qed.

Lemma Forall2_impl' {A B} (P Q : A -> B -> Prop) l l' : (forall a b, P a b -> Q a b) ->
  Forall2 P l l' -> Forall2 Q l l'.
Proof. intros H F. induction F; constructor; auto. Qed.

(** ** The collector *)

(** It leaves stack objects alone, and only changes generations of the others. *)
Record gcs (h h' : heap) : Prop := {
  s_fresh : fresh h' = fresh h;
  s_stack : forall x ob g d, mem h x = Some ob -> oloc ob = LStack g d -> mem h' x = Some ob;
  s_old : forall x ob', mem h' x = Some ob' -> exists ob, mem h x = Some ob /\
    okind ob' = okind ob /\ ofields ob' = ofields ob /\
    (ob' = ob \/ exists a b, oloc ob = LGc a /\ oloc ob' = LGc b)
}.

Lemma gcs_refl h : gcs h h.
Proof. constructor; auto. intros x ob H. exists ob. auto. Qed.
Lemma gcs_trans a b c : gcs a b -> gcs b c -> gcs a c.
Proof.
  intros A B. constructor.
  - rewrite (s_fresh _ _ B). apply (s_fresh _ _ A).
  - intros x ob g d H1 H2. eapply (s_stack _ _ B); eauto. eapply (s_stack _ _ A); eauto.
  - intros x ob2 H2. destruct (s_old _ _ B _ _ H2) as [ob1 [H1 [K1 [F1 L1]]]].
    destruct (s_old _ _ A _ _ H1) as [ob0 [H0 [K0 [F0 L0]]]]. exists ob0.
    split; [auto|]. split; [congruence|]. split; [congruence|].
    destruct L1 as [->|[p [q [L1 L1']]]], L0 as [->|[r [s [L0 L0']]]]; auto.
    + right. eauto.
    + right. eauto.
    + right. eauto.
Qed.
Lemma gcs_mem h h' : mem h' = mem h -> fresh h' = fresh h -> gcs h h'.
Proof.
  intros H1 H2. constructor; auto; rewrite H1; auto. intros x ob H. exists ob. auto.
Qed.

Lemma gcs_mono h h' : gcs h h' -> mono h h'.
Proof.
  intros G. constructor.
  - rewrite (s_fresh _ _ G). auto.
  - intros x ob g d H1 H2. exists ob. split; [eapply (s_stack _ _ G); eauto|auto].
  - intros x ob' _ H. destruct (s_old _ _ G _ _ H) as [ob [H1 [H2 [H3 _]]]]. eauto.
  - intros x d [ob' [p [H Hp]]]. destruct (s_old _ _ G _ _ H) as [ob [H1 [H2 [H3 [->|[a [b [_ E]]]]]]]].
    + exists ob, p. auto.
    + congruence.
Qed.

Lemma gcs_free_one h : LI [] h -> gcs h (free_one h).
Proof.
  intros I. unfold free_one, get. destruct (lists h GFree) as [|o r] eqn:E; [apply gcs_refl|].
  assert (Ho : inl h GFree o) by (unfold inl; rewrite E; cbn; auto).
  destruct (l_gcobj _ _ I _ _ Ho) as [g0 [ob0 [Hm Hl]]].
  constructor; cbn; auto.
  - intros x ob g d H1 H2. unfold upd. destruct (Nat.eq_dec x o) as [->|]; [congruence|auto].
  - intros x ob'. unfold upd. destruct (Nat.eq_dec x o); [discriminate|]. intros H. exists ob'. auto.
Qed.

Lemma gcs_incr_gc h h' : LI [] h -> incr_gc h = Some h' -> gcs h h'.
Proof.
  intros I H. unfold incr_gc in H.
  pose proof (gcs_free_one h I) as G1. destruct (li_free_one h I) as [I1 _].
  pose proof (gcs_free_one _ I1) as G2.
  set (h2 := free_one (free_one h)) in *.
  eapply gcs_trans; [exact G1|]. eapply gcs_trans; [exact G2|].
  clearbody h2. clear G1 G2 I1 I.
  unfold get in H. destruct (lists h2 GMrk) as [|o r].
  - destruct (mlt_same (Mrk (g_frame (gc h2))) (g_save (gc h2)) (move_all h2 GFree GUnm)) as [M1 [M2 _]].
    cbv zeta in H. set (h3 := move_list_to _ _ _) in *.
    destruct (g_next (gc h2)); injection H as <-; apply gcs_mem; cbn; rewrite ?M1, ?M2; auto.
  - cbn [mem set_lists] in H. destruct (mem h2 o) as [ob|] eqn:Em; [|discriminate].
    destruct (oloc ob) as [|g0] eqn:El; [discriminate|].
    match type of H with context [mark_refs ?a ?b] => destruct (mark_refs a b) as [h3|] eqn:E3; [|discriminate] end.
    injection H as <-. destruct (mark_refs_same _ _ _ E3) as [M1 [M2 _]]. cbn in M1, M2.
    constructor; cbn; rewrite ?M1, ?M2; auto.
    + intros x b g d H1 H2. unfold upd. destruct (Nat.eq_dec x o) as [->|]; [congruence|auto].
    + intros x b. unfold upd. destruct (Nat.eq_dec x o) as [->|].
      * intros [= <-]. exists ob. cbn. split; auto. split; auto. split; auto. right. eauto.
      * intros H. exists b. auto.
Qed.

(** ** Allocation *)

Lemma copy_ok_step X h h' : mono h h' -> copy_ok X h ->
  (forall x ob g d, mem h' x = Some ob -> oloc ob = LStack (Some g) d ->
     exists ob0, mem h x = Some ob0 /\ oloc ob0 = LStack (Some g) d /\ okind ob0 = okind ob /\
       ofields ob0 = ofields ob) ->
  copy_ok X h'.
Proof.
  intros M C H x ob g d Hm Hl. destruct (H _ _ _ _ Hm Hl) as [ob0 [H0 [L0 [K0 F0]]]].
  destruct (C _ _ _ _ H0 L0) as [C1 [C2 C3]].
  split; [pose proof (m_fresh _ _ M); lia|]. split.
  - intros e Hs. eapply C2. eapply m_back; eauto.
  - intros Hx gb Hgb. destruct (m_old _ _ M _ _ C1 Hgb) as [gb0 [G1 [G2 G3]]].
    destruct (C3 Hx _ G1) as [D1 D2]. split; [congruence|]. rewrite <- F0, G3.
    eapply Forall2_impl'; [|exact D2]. intros a b. apply tr_mono; auto.
Qed.

Lemma copy_ok_gcs X h h' : gcs h h' -> copy_ok X h -> copy_ok X h'.
Proof.
  intros G C. eapply copy_ok_step; eauto; [apply gcs_mono; auto|].
  intros x ob g d Hm Hl. destruct (s_old _ _ G _ _ Hm) as [ob0 [H0 [K0 [F0 [->|[a [b [_ E]]]]]]]]; [|congruence].
  exists ob0. auto.
Qed.

(** A new object that is not a copy of anything yet. *)
Lemma new_obj_mono h o ob : o = fresh h -> (forall x ob, mem h x = Some ob -> x < fresh h) ->
  (forall g d, oloc ob <> LStack g d) ->
  forall h', mem h' = upd (mem h) o (Some ob) -> fresh h' = S o -> mono h h'.
Proof.
  intros Ho Fr Hl h' Hm Hf.
  assert (Hne : forall x, mem h x <> None -> x <> o).
  { intros x Hx ->. destruct (mem h o) as [b|] eqn:E; [|congruence]. apply Fr in E. lia. }
  constructor.
  - lia.
  - intros x b g d H1 H2. exists b. rewrite Hm. unfold upd. destruct (Nat.eq_dec x o) as [->|]; [|auto].
    exfalso. apply (Hne o); congruence.
  - intros x b Hx. rewrite Hm. unfold upd. destruct (Nat.eq_dec x o) as [->|]; [lia|]. eauto.
  - intros x d [b [p [H1 H2]]]. rewrite Hm in H1. unfold upd in H1.
    destruct (Nat.eq_dec x o) as [->|]; [|exists b, p; auto].
    injection H1 as <-. destruct (Hl _ _ H2).
Qed.

Lemma new_gc_copy X h d k vs h' o : LI [] h -> copy_ok X h -> new_gc h d k vs = Some (h', o) ->
  mono h h' /\ copy_ok X h' /\ fresh h = o /\ fresh h' = S o /\
  (exists g, mem h' o = Some (mk_obj k vs (LGc g))) /\
  (forall x ob d, mem h' x = Some ob -> oloc ob = LStack (Some o) d -> False).
Proof.
  intros I C H. unfold new_gc in H. destruct (incr_gc h) as [h1|] eqn:E; [|discriminate].
  injection H as <- <-. pose proof (gcs_incr_gc _ _ I E) as G. destruct (li_incr_gc _ _ I E) as [I1 _].
  set (o := fresh h1). set (ob := mk_obj k vs (LGc (gen (frames h1 d)))). set (h' := set_lists _ _).
  assert (M1 : mono h1 h').
  { apply (new_obj_mono h1 o ob); auto; [exact (l_fresh _ _ I1)|cbn; discriminate]. }
  assert (C1 : copy_ok X h1) by (eapply copy_ok_gcs; eauto).
  assert (Hback : forall x b g e, mem h' x = Some b -> oloc b = LStack (Some g) e -> mem h1 x = Some b).
  { intros x b g e Hx Hl. unfold h' in Hx. cbn in Hx. unfold upd in Hx. destruct (Nat.eq_dec x o); [|auto].
    injection Hx as <-. cbn in Hl. discriminate. }
  split; [eapply mono_trans; [exact (l_fresh _ _ I1)|apply gcs_mono; eauto|exact M1]|].
  split. { eapply copy_ok_step; [exact M1|exact C1|]. intros x b g e Hx Hl. exists b. split; [eauto|auto]. }
  split; [symmetry; apply (s_fresh _ _ G)|]. split; [reflexivity|].
  split.
  - exists (gen (frames h1 d)). unfold h'. cbn. unfold upd, o. destruct (Nat.eq_dec _ _); [reflexivity|congruence].
  - intros x b e Hx Hl. pose proof (Hback _ _ _ _ Hx Hl) as Hx1. destruct (C1 _ _ _ _ Hx1 Hl) as [C2 _].
    unfold o in C2. lia.
Qed.

Lemma set_nth_app done k v x : set_nth (done ++ x :: k) (length done) v = done ++ v :: k.
Proof. induction done as [|a l IH]; cbn; [reflexivity|]. rewrite IH. reflexivity. Qed.

Lemma tr_loc h h' v v' : fresh h' = fresh h ->
  (forall x ob g d, mem h x = Some ob -> oloc ob = LStack g d -> mem h' x = Some ob) ->
  (forall x d, stackobj (mem h') x d -> stackobj (mem h) x d) -> tr h v v' -> tr h' v v'.
Proof.
  intros Hf H1 H2. destruct v as [| |o|]; cbn; auto. intros [[ob [g [d [A [B C]]]]]|[A [B C]]].
  - left. exists ob, g, d. split; [eapply H1; eauto|auto].
  - right. rewrite Hf. split; [auto|]. split; [|auto]. intros d Hs. eapply B; eauto.
Qed.

(** The copying loop of GcRealloc. *)
Section loop.
  Context (fuel : nat) (X : list nat).
  Context (IH : forall h v h' v' X, LI [] h -> copy_ok X h -> gc_realloc fuel h v = Some (h', v') ->
    LI [] h' /\ mono h h' /\ copy_ok X h' /\ tr h' v v').
  Context (h0 : heap) (o g d : nat) (ob : obj).
  Context (Fr0 : forall x b, mem h0 x = Some b -> x < fresh h0).
  Context (Hg0 : fresh h0 <= g).

  Record st (h : heap) (done rest : list value) : Prop := {
    st_li : LI [] h;
    st_mono : mono h0 h;
    st_copy : copy_ok (o :: X) h;
    st_o : exists b, mem h o = Some b /\ okind b = okind ob /\ ofields b = ofields ob /\ oloc b = LStack (Some g) d;
    st_only : forall x b e, mem h x = Some b -> oloc b = LStack (Some g) e -> x = o;
    st_gf : g < fresh h;
    st_g : forall b, mem h g = Some b -> okind b = okind ob /\
      ofields b = done ++ repeat VUninit (length rest);
    st_src : exists src, ofields ob = src ++ rest /\ Forall2 (tr h) src done
  }.

  Lemma loop_ok : forall rest h done i h' v', st h done rest -> i = length done ->
    (fix fields (h : heap) (i : nat) (vs : list value) {struct vs} : option (heap * value) :=
       match vs with
       | [] => Some (h, VObj g)
       | x :: vs' =>
         match gc_realloc fuel h x with
         | None => None
         | Some (h', x') => fields (set_field h' g i x') (S i) vs'
         end
       end) h i rest = Some (h', v') ->
    v' = VObj g /\ exists done', st h' done' [].
  Proof.
    induction rest as [|x rest IHr]; intros h done i h' v' S Hi H.
    - injection H as <- <-. split; [reflexivity|]. exists done. exact S.
    - destruct (gc_realloc fuel h x) as [[h1 x1]|] eqn:E; [|discriminate].
      destruct S as [Sl Sm Sc So Sn Sf Sg Ss].
      destruct (IH _ _ _ _ _ Sl Sc E) as [L1 [M1 [C1 T1]]].
      assert (Mm : mono h0 h1) by (eapply mono_trans; [exact (l_fresh _ _ Sl)|exact Sm|exact M1]).
      destruct So as [b [B1 [B2 [B3 B4]]]].
      destruct (m_stack _ _ M1 _ _ _ _ B1 B4) as [b1 [B1' [B2' [B3' [B4'|[B4' _]]]]]]; [|discriminate].
      assert (Sn1 : forall y c e, mem h1 y = Some c -> oloc c = LStack (Some g) e -> y = o).
      { intros y c e Hy Hl.
        destruct (m_back _ _ M1 y e) as [c0 [p [Hc0 Hp]]]; [exists c, (Some g); auto|].
        destruct (m_stack _ _ M1 _ _ _ _ Hc0 Hp) as [c1 [Hc1 [_ [_ Hl1]]]].
        rewrite Hy in Hc1. injection Hc1 as <-. destruct Hl1 as [Hl1|[-> [g' [Hl1 Hg']]]].
        - rewrite Hl in Hl1. injection Hl1 as <-. eapply Sn; eauto.
        - rewrite Hl in Hl1. injection Hl1 as <-. lia. }
      assert (Sg1 : forall c, mem h1 g = Some c -> okind c = okind ob /\
         ofields c = done ++ repeat VUninit (length (x :: rest))).
      { intros c Hc. destruct (m_old _ _ M1 g c Sf Hc) as [c0 [H0 [K0 F0]]].
        destruct (Sg _ H0) as [A1 A2]. split; congruence. }
      assert (Sf1 : g < fresh h1) by (pose proof (m_fresh _ _ M1); lia).
      destruct Ss as [src [Es Fs]].
      assert (Fs1 : Forall2 (tr h1) src done).
      { eapply Forall2_impl'; [|exact Fs]. intros p q. apply tr_mono; auto. }
      assert (Hgs : forall e, ~ stackobj (mem h1) g e).
      { destruct (C1 _ _ _ _ B1' B4') as [_ [Hns _]]. exact Hns. }
      assert (Hgo : g <> o).
      { intros ->. apply (Hgs d). exists b1, (Some o). auto. }
      (* the write *)
      set (h2 := set_field h1 g i x1).
      pose proof (li_set_field h1 g i x1 L1) as [L2 _]. fold h2 in L2.
      assert (Hm2 : forall y, y <> g -> mem h2 y = mem h1 y).
      { intros y Hy. unfold h2, set_field. destruct (mem h1 g) as [c|]; [|reflexivity].
        cbn. unfold upd. destruct (Nat.eq_dec y g); congruence. }
      assert (Hf2 : fresh h2 = fresh h1).
      { unfold h2, set_field. destruct (mem h1 g); reflexivity. }
      assert (Hg2 : forall c, mem h2 g = Some c -> exists c0, mem h1 g = Some c0 /\ okind c = okind c0 /\
          ofields c = set_nth (ofields c0) i x1 /\ oloc c = oloc c0).
      { intros c. unfold h2, set_field. destruct (mem h1 g) as [c0|] eqn:E0; [|congruence].
        cbn. unfold upd. destruct (Nat.eq_dec g g); [|congruence]. intros [= <-]. exists c0. auto. }
      assert (S2s : forall y c p e, mem h1 y = Some c -> oloc c = LStack p e -> mem h2 y = Some c).
      { intros y c p e Hy Hl. rewrite Hm2; auto. intros ->. apply (Hgs e). exists c, p. auto. }
      assert (S2b : forall y e, stackobj (mem h2) y e -> stackobj (mem h1) y e).
      { intros y e [c [p [Hy Hl]]]. destruct (Nat.eq_dec y g) as [->|Hn].
        - destruct (Hg2 _ Hy) as [c0 [Hc0 [_ [_ Hl0]]]]. exists c0, p. split; congruence.
        - rewrite Hm2 in Hy by auto. exists c, p. auto. }
      assert (T2 : forall a c, tr h1 a c -> tr h2 a c).
      { intros a c. apply tr_loc; auto. }
      apply (IHr h2 (done ++ [x1]) (Datatypes.S i) h' v'); [|rewrite app_length; cbn; lia|exact H].
      constructor; auto.
      + constructor.
        * rewrite Hf2. apply (m_fresh _ _ Mm).
        * intros y c p e Hy Hl. destruct (m_stack _ _ Mm _ _ _ _ Hy Hl) as [c1 [D1 [D2 [D3 D4]]]].
          exists c1. split; [|auto]. destruct D4 as [D4|[_ [g' [D4 _]]]]; eapply S2s; eauto.
        * intros y c Hy Hc. rewrite Hm2 in Hc by lia. eapply m_old; eauto.
        * intros y e Hs. apply (m_back _ _ Mm), S2b, Hs.
      + intros y c p e Hy Hl.
        assert (Hyg : y <> g).
        { intros ->. apply (Hgs e). apply S2b. exists c, (Some p). auto. }
        rewrite Hm2 in Hy by auto. destruct (C1 _ _ _ _ Hy Hl) as [D1 [D2 D3]].
        split; [rewrite Hf2; auto|]. split; [intros e' Hs; eapply D2; eapply S2b; eauto|].
        intros Hn gb Hgb.
        assert (Hpg : p <> g).
        { intros ->. apply Hn. left. symmetry. eapply Sn1; eauto. }
        rewrite Hm2 in Hgb by auto. destruct (D3 Hn _ Hgb) as [D4 D5]. split; auto.
        eapply Forall2_impl'; [|exact D5]. exact T2.
      + exists b1. split; [rewrite Hm2 by auto; exact B1'|]. split; [congruence|]. split; [congruence|auto].
      + intros y c e Hy Hl. eapply Sn1; [|exact Hl].
        rewrite <- Hm2; auto. intros ->. apply (Hgs e). apply S2b. exists c, (Some g). auto.
      + rewrite Hf2. auto.
      + intros c Hc. destruct (Hg2 _ Hc) as [c0 [E0 [E1 [E2 _]]]]. destruct (Sg1 _ E0) as [A1 A2].
        split; [congruence|]. rewrite E2, A2, Hi. cbn [length repeat]. rewrite set_nth_app, <- app_assoc. reflexivity.
      + exists (src ++ [x]). split; [rewrite Es, <- app_assoc; reflexivity|].
        apply Forall2_app; [eapply Forall2_impl'; [|exact Fs1]; exact T2|]. constructor; [|constructor]. apply T2, T1.
  Qed.
End loop.

Lemma gc_realloc_copy fuel : forall h v h' v' X, LI [] h -> copy_ok X h ->
  gc_realloc fuel h v = Some (h', v') ->
  LI [] h' /\ mono h h' /\ copy_ok X h' /\ tr h' v v'.
Proof.
  induction fuel as [|fuel IH]; intros h v h' v' X I C H.
  - assert (K : LI [] h' /\ h' = h /\ tr h v v').
    { cbn in H. destruct v as [| |o|]; try discriminate; try (injection H as <- <-; cbn; auto).
      destruct (mem h o) as [ob|] eqn:Em; [|discriminate].
      destruct (oloc ob) as [[g|] d|g] eqn:El; try discriminate; injection H as <- <-; split; auto; split; auto.
      - left. exists ob, g, d. auto.
      - right. split; [exact (l_fresh _ _ I _ _ Em)|]. split; [|reflexivity].
        intros d [b [p [Hb Hp]]]. congruence. }
    destruct K as [K1 [-> K3]]. split; [exact I|]. split; [apply mono_refl|]. auto.
  - cbn [gc_realloc] in H.
    destruct v as [| |o|]; try discriminate;
      try (injection H as <- <-; split; [exact I|]; split; [apply mono_refl|]; split; [exact C|reflexivity]).
    destruct (mem h o) as [ob|] eqn:Em; [|discriminate].
    destruct (oloc ob) as [[g|] d|g] eqn:El.
    + injection H as <- <-. split; [exact I|]. split; [apply mono_refl|]. split; [exact C|].
      left. exists ob, g, d. auto.
    + assert (Hd : d <= top h) by (apply (l_stack _ _ I o); exists ob, None; auto).
      assert (K : forall h1 g, new_gc h d (okind ob) (repeat VUninit (length (ofields ob))) = Some (h1, g) ->
        (fix fields (h : heap) (i : nat) (vs : list value) {struct vs} : option (heap * value) :=
           match vs with
           | [] => Some (h, VObj g)
           | x :: vs' =>
             match gc_realloc fuel h x with
             | None => None
             | Some (h', x') => fields (set_field h' g i x') (S i) vs'
             end
           end) (set_stack_gc h1 o g) 0 (ofields ob) = Some (h', v') ->
        LI [] h' /\ mono h h' /\ copy_ok X h' /\ tr h' (VObj o) v').
      2:{ destruct (okind ob) eqn:Ek; try discriminate;
          (match type of H with context[new_gc h d ?k ?vs] => destruct (new_gc h d k vs) as [[h1 g]|] eqn:E1; [|discriminate] end;
           eapply K; [reflexivity|exact H]). }
      clear H. intros h1 g E1 H.
      destruct (li_new_gc _ _ _ _ _ _ I Hd E1) as [[I1 _] _].
      destruct (new_gc_copy X _ _ _ _ _ _ I C E1) as [M1 [C1 [Hg1 [Hg2 [[gg Hgm] Hno]]]]].
      destruct (m_stack _ _ M1 _ _ _ _ Em El) as [ob1 [O1 [O2 [O3 O4]]]].
      destruct O4 as [O4|[_ [g' [O4 O5]]]].
      2:{ exfalso. destruct (C1 _ _ _ _ O1 O4) as [Hlt _]. assert (g' = g) by lia. subst g'. eapply Hno; eauto. }
      pose proof (li_set_stack_gc h1 o g I1) as [I2 _].
      set (h2 := set_stack_gc h1 o g) in *.
      assert (Hgo : g <> o).
      { intros <-. rewrite Hgm in O1. injection O1 as <-. discriminate. }
      assert (Hm2 : forall y, y <> o -> mem h2 y = mem h1 y).
      { intros y Hy. unfold h2, set_stack_gc. rewrite O1, O4. cbn. unfold upd. destruct (Nat.eq_dec y o); congruence. }
      assert (Hmo : mem h2 o = Some (mk_obj (okind ob1) (ofields ob1) (LStack (Some g) d))).
      { unfold h2, set_stack_gc. rewrite O1, O4. cbn. unfold upd. destruct (Nat.eq_dec o o); congruence. }
      assert (Hf2 : fresh h2 = fresh h1).
      { unfold h2, set_stack_gc. rewrite O1, O4. reflexivity. }
      assert (S2b : forall y e, stackobj (mem h2) y e <-> stackobj (mem h1) y e).
      { intros y e. destruct (Nat.eq_dec y o) as [->|Hn].
        - split; intros [c [p [Hy Hl]]].
          + rewrite Hmo in Hy. injection Hy as <-. injection Hl as <- <-. exists ob1, None. auto.
          + rewrite O1 in Hy. injection Hy as <-. rewrite O4 in Hl. injection Hl as <- <-. eexists _, _. split; [exact Hmo|reflexivity].
        - unfold stackobj. rewrite Hm2 by auto. tauto. }
      assert (T2 : forall a c, tr h1 a c -> tr h2 a c).
      { intros a c. destruct a as [| |y|]; cbn; auto. intros [[b [g0 [e [A [B D]]]]]|[A [B D]]].
        - left. exists b, g0, e. split; [|auto]. rewrite Hm2; auto. intros ->. congruence.
        - right. rewrite Hf2. split; [auto|]. split; [|auto]. intros e Hs. apply S2b in Hs. eapply B; eauto. }
      assert (S0 : st X h o g d ob h2 [] (ofields ob)).
      { constructor.
        - exact I2.
        - constructor.
          + rewrite Hf2. apply (m_fresh _ _ M1).
          + intros y c p e Hy Hl. destruct (Nat.eq_dec y o) as [->|Hn].
            * rewrite Em in Hy. injection Hy as <-. rewrite El in Hl. injection Hl as <- <-.
              eexists. split; [exact Hmo|]. cbn. split; [auto|]. split; [auto|]. right. split; [auto|].
              exists g. split; [auto|lia].
            * destruct (m_stack _ _ M1 _ _ _ _ Hy Hl) as [c1 [D1 D2]]. exists c1. split; [|exact D2].
              rewrite Hm2; auto.
          + intros y c Hy Hc. destruct (Nat.eq_dec y o) as [->|Hn].
            * rewrite Hmo in Hc. injection Hc as <-. exists ob. cbn. auto.
            * rewrite Hm2 in Hc by auto. eapply m_old; eauto.
          + intros y e Hs. apply S2b in Hs. eapply m_back; eauto.
        - intros y c p e Hy Hl. destruct (Nat.eq_dec y o) as [->|Hn].
          + rewrite Hmo in Hy. injection Hy as <-. injection Hl as <- <-.
            split; [lia|]. split; [|cbn; tauto].
            intros e Hs. apply S2b in Hs. destruct Hs as [c [p [Hc Hp]]]. rewrite Hgm in Hc. injection Hc as <-. discriminate.
          + rewrite Hm2 in Hy by auto. destruct (C1 _ _ _ _ Hy Hl) as [D1 [D2 D3]].
            split; [rewrite Hf2; auto|]. split; [intros e' Hs; apply S2b in Hs; eapply D2; eauto|].
            intros Hx gb Hgb.
            assert (Hpo : p <> o).
            { intros ->. apply (D2 d). exists ob1, None. auto. }
            rewrite Hm2 in Hgb by auto. destruct (D3 (fun h => Hx (or_intror h)) _ Hgb) as [D4 D5].
            split; auto. eapply Forall2_impl'; [|exact D5]. exact T2.
        - eexists. split; [exact Hmo|]. cbn. auto.
        - intros y c e Hy Hl. destruct (Nat.eq_dec y o) as [->|Hn]; [reflexivity|].
          rewrite Hm2 in Hy by auto. exfalso. eapply Hno; eauto.
        - lia.
        - intros c. rewrite Hm2 by auto. rewrite Hgm. intros [= <-]. cbn. auto.
        - exists []. split; [reflexivity|constructor]. }
      assert (Hgh : fresh h <= g) by lia.
      destruct (loop_ok fuel X IH h o g d ob Hgh _ _ _ _ _ _ S0 eq_refl H) as [-> [done [Fl Fm Fc Fo Fn Ff Fg Fs]]].
      split; [exact Fl|]. split; [exact Fm|].
      destruct Fo as [b [B1 [B2 [B3 B4]]]]. split.
      * intros y c p e Hy Hl. destruct (Fc _ _ _ _ Hy Hl) as [D1 [D2 D3]]. split; [exact D1|]. split; [exact D2|].
        intros Hx gb Hgb. destruct (Nat.eq_dec y o) as [->|Hn].
        -- rewrite B1 in Hy. injection Hy as <-. rewrite B4 in Hl. injection Hl as <- <-.
           destruct (Fg _ Hgb) as [A1 A2]. split; [congruence|].
           destruct Fs as [src [Es Fs]]. rewrite B3, Es, A2, !app_nil_r. exact Fs.
        -- apply D3; auto. intros [->|Hi]; auto.
      * left. exists b, g, d. auto.
    + injection H as <- <-. split; [exact I|]. split; [apply mono_refl|]. split; [exact C|].
      right. split; [exact (l_fresh _ _ I _ _ Em)|]. split; [|reflexivity].
      intros d [b [p [Hb Hp]]]. congruence.
Qed.

Lemma realloc_list_copy X vs : forall h h' vs', LI [] h -> copy_ok X h ->
  realloc_list h vs = Some (h', vs') ->
  LI [] h' /\ mono h h' /\ copy_ok X h' /\ Forall2 (tr h') vs vs'.
Proof.
  induction vs as [|v vs IH]; intros h h' vs' I C H; cbn in H.
  - injection H as <- <-. split; [exact I|]. split; [apply mono_refl|]. split; [exact C|constructor].
  - destruct (realloc h v) as [[h1 v1]|] eqn:E1; [|discriminate].
    destruct (realloc_list h1 vs) as [[h2 vs2]|] eqn:E2; [|discriminate]. injection H as <- <-.
    destruct (gc_realloc_copy _ _ _ _ _ _ I C E1) as [I1 [M1 [C1 T1]]].
    destruct (IH _ _ _ I1 C1 E2) as [I2 [M2 [C2 T2]]].
    split; [exact I2|]. split; [eapply mono_trans; [exact (l_fresh _ _ I1)|eauto|eauto]|]. split; [exact C2|].
    constructor; auto. eapply tr_mono; eauto.
Qed.
