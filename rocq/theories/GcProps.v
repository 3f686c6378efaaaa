(** * Memory safety of the value heap, for every history of calls (C10, C14). *)

From Coq Require Import Arith List Bool Lia.
From Verif Require Import GcModel GcInv GcStep GcAlloc GcFrames GcSink GcPop GcClient.
Import ListNotations.

Definition sinv (s : cst) : Prop := Inv (c_heap s) (c_vals s) (c_refs s) [].

Lemma usable_gv s v : sinv s -> usable s v -> gv (c_heap s) (top (c_heap s)) v.
Proof.
  intros I [->|[[z ->]|[Hu Hv]]]; cbn; auto. eapply root_gv; eauto.
Qed.

Lemma add_val_inv s h v : Inv h (c_vals s) (c_refs s) [] -> gv h (top h) v -> sinv (add_val s h v).
Proof.
  intros I Hv. unfold sinv, add_val; cbn.
  apply (inv_radd _ _ _ _ (top h) [v]) in I; [exact I|]. intros u [<-|[]]; auto.
Qed.

Lemma field_gv h R P d o ob v : Inv h R P [] -> gv h d (VObj o) -> mem h o = Some ob ->
  In v (ofields ob) -> gv h d v.
Proof.
  intros I Ho Hm Hv. destruct v as [| |x|]; cbn; auto.
  - eapply (gv_edge _ _ _ _ _ o x); eauto. exists ob; auto.
  - destruct Ho as [Hn _]. destruct (i_uninit _ _ _ _ I _ _ Hn Hm Hv) as [d' []].
Qed.

Lemma exec_inv fix_ s o : sinv s -> allowed s o -> fix_ = true \/ pop_owned s o ->
  exists s', exec fix_ s o = Some s' /\ sinv s'.
Proof.
  intros I A C. destruct o as [k vs| |data|r v|o i|m vs|v|m vs]; cbn [exec allowed] in *.
  - destruct A as [[K1 K2] A].
    destruct (new_stack_inv _ _ _ _ k vs I) as [I1 [G1 [_ E1]]].
    { destruct k; cbn; auto. apply (K2 data). reflexivity. }
    { intros v Hv. apply usable_gv; auto. }
    destruct (new_stack (c_heap s) k vs) as [h' x] eqn:E. cbn [fst snd] in *.
    eexists; split; [reflexivity|]. apply add_val_inv; auto.
    rewrite (e_top _ _ _ E1). auto.
  - destruct (new_ref_inv _ _ _ I) as [h' [r [-> [I1 E1]]]]. eexists; split; [reflexivity|]. exact I1.
  - destruct (new_native_inv _ _ _ data I) as [h' [r [-> [I1 E1]]]].
    eexists; split; [reflexivity|]. unfold sinv, add_val. cbn [c_heap c_vals c_refs].
    rewrite (e_top _ _ _ E1). exact I1.
  - destruct A as [Hr Hv].
    assert (I1 : Inv (c_heap s) (radd (c_vals s) (top (c_heap s)) [v]) (c_refs s) []).
    { apply inv_radd; auto. intros u [<-|[]]. apply usable_gv; auto. }
    destruct (assign_inv _ _ _ r v I1 Hr) as [h' [-> [I2 T2]]].
    { rewrite in_radd. cbn; auto. }
    eexists; split; [reflexivity|]. unfold sinv; cbn. eapply inv_runadd; eauto.
  - pose proof (usable_gv _ _ I A) as Ho. destruct Ho as [[Hn Hf] Ho'].
    destruct (mem (c_heap s) o) as [ob|] eqn:E; [|congruence].
    destruct (nth_error (ofields ob) i) as [v|] eqn:Ei; [|eexists; split; [reflexivity|]; exact I].
    apply nth_error_In in Ei.
    assert (G : gv (c_heap s) (top (c_heap s)) v).
    { eapply field_gv; eauto. split; auto. split; auto. congruence. }
    assert (v <> VUninit) by (intros ->; exact G).
    destruct v; try congruence; (eexists; split; [reflexivity|]; apply add_val_inv; auto).
  - destruct m.
    + eexists; split; [reflexivity|]. apply push_merge_inv. exact I.
    + eexists; split; [reflexivity|]. unfold sinv. cbn [c_heap c_vals c_refs].
      apply (push_inv I). intros v Hv. apply usable_gv; auto.
  - destruct A as [Hv Ht]. pose proof (usable_gv _ _ I Hv) as G.
    destruct (merges (frames (c_heap s) (top (c_heap s)))) as [|n] eqn:Em.
    + destruct (top (c_heap s)) as [|c] eqn:Et; [exfalso; destruct Ht; congruence|].
      assert (I1 : Inv (c_heap s) (radd (c_vals s) (top (c_heap s)) [v]) (c_refs s) []).
      { apply inv_radd; auto. rewrite Et. intros u [<-|[]]. auto. }
      destruct (pop_inv fix_ _ _ _ v I1) with (c := c) as [h' [v' [-> [I2 T2]]]]; auto.
      { rewrite in_radd. cbn; auto. }
      { rewrite Et. auto. }
      { destruct C as [C|C]; [left; exact C|right]. unfold own_of.
        cbn [pop_owned] in C. rewrite Et, Em in C. destruct C as [C|C]; [congruence|]. exact C. }
      eexists; split; [reflexivity|]. unfold sinv, add_val. cbn [c_heap c_vals c_refs]. rewrite T2.
      eapply inv_roots; [exact I2|]. intros d u Hd Hu. eapply root_gv; [exact I2|exact Hd|].
      unfold radd, upd in *. destruct (Nat.eq_dec d c) as [->|]; auto.
      * destruct (Nat.eq_dec c (top (c_heap s))) as [e|]; [lia|exact Hu].
      * destruct (Nat.eq_dec d (top (c_heap s))) as [e|]; [lia|exact Hu].
    + unfold pop. rewrite Em. eexists; split; [reflexivity|].
      pose proof (dec_merge_inv _ _ _ _ n I) as I1. apply add_val_inv; auto.
  - destruct A as [Hv Ht]. destruct m.
    + eexists; split; [reflexivity|]. exact I.
    + assert (G : forall v, In v vs -> gv (c_heap s) (top (c_heap s)) v).
      { intros v Hi. apply usable_gv; auto. }
      destruct (merges (frames (c_heap s) (top (c_heap s)))) as [|n] eqn:Em.
      * destruct (top (c_heap s)) as [|c] eqn:Et; [exfalso; destruct Ht as [?|[?|?]]; congruence|].
        assert (I1 : Inv (c_heap s) (radd (c_vals s) (top (c_heap s)) vs) (c_refs s) []).
        { apply inv_radd; auto. rewrite Et. auto. }
        destruct (compact_inv _ _ _ vs I1) with (c := c) as [h' [vs' [-> [I2 T2]]]]; auto.
        { intros v Hi. rewrite in_radd. auto. }
        { rewrite Et. auto. }
        eexists; split; [reflexivity|]. unfold sinv. cbn [c_heap c_vals c_refs]. rewrite T2.
        eapply inv_roots; [exact I2|]. intros d u Hd Hu. eapply root_gv; [exact I2|exact Hd|].
        unfold radd, upd in *. destruct (Nat.eq_dec d (top (c_heap s))) as [e|]; auto.
      * unfold compact. rewrite Em. eexists; split; [reflexivity|]. unfold sinv.
        cbn [c_heap c_vals c_refs].
        pose proof (dec_merge_inv _ _ _ _ n I) as I1. cbn zeta in I1.
        apply (push_inv I1). exact G.
Qed.

Lemma reached_sinv fix_ (C : cst -> op -> Prop) s : (forall s o, C s o -> fix_ = true \/ pop_owned s o) ->
  reached fix_ C s -> sinv s.
Proof.
  intros HC H. induction H as [|s o s' H IH A Ho E].
  - apply new_heap_inv; reflexivity.
  - destruct (exec_inv fix_ s o IH A (HC _ _ Ho)) as [s1 [E1 I1]]. congruence.
Qed.

Lemma follows_gv h R P v x d : Inv h R P [] -> gv h d v -> follows (mem h) v x -> gv h d (VObj x).
Proof.
  intros I Hv F. induction F as [x|v o ob x F IH Hm Hx]; [exact Hv|].
  eapply field_gv; eauto.
Qed.

Lemma sinv_intact s : sinv s -> intact s.
Proof.
  intros I d v x Hd Hv F.
  assert (G : gv (c_heap s) d (VObj x)).
  { eapply follows_gv; eauto. eapply root_gv; eauto. }
  destruct G as [Hn _]. destruct (mem (c_heap s) x) as [ob|] eqn:E; [|destruct Hn; congruence].
  exists ob. split; [reflexivity|]. intros Hu.
  destruct (i_uninit _ _ _ _ I _ _ Hn E Hu) as [? []].
Qed.

(** ** C10, for the repaired FblePopFrame: no history of calls that respects the contract
    makes a value in use dangle, and no such call runs into undefined behaviour. *)

Theorem values_in_use_intact_repaired s : reached true any s -> intact s.
Proof.
  intros H. apply sinv_intact. eapply reached_sinv; [|exact H]. auto.
Qed.

Theorem calls_defined_repaired s o : reached true any s -> allowed s o -> defined true s o.
Proof.
  intros H A. destruct (exec_inv true s o) as [s' [E _]]; auto.
  - eapply reached_sinv; [|exact H]. auto.
  - unfold defined. congruence.
Qed.

(** ** C10, for the code as it is: the same, for histories in which FblePopFrame's
    ownership test holds whenever the collector is at work on the popped frame. *)

Theorem values_in_use_intact_partial s : reached false pop_owned s -> intact s.
Proof.
  intros H. apply sinv_intact. eapply reached_sinv; [|exact H]. auto.
Qed.

Theorem calls_defined_partial s o : reached false pop_owned s -> allowed s o -> pop_owned s o ->
  defined false s o.
Proof.
  intros H A C. destruct (exec_inv false s o) as [s' [E _]]; auto.
  - eapply reached_sinv; [|exact H]. auto.
  - unfold defined. congruence.
Qed.

(** ** C10 as it stands is false of the code: a history that respects the contract makes
    the collector free an object that a value in use refers to. *)

Definition early_free : list op :=
  [Push false []; Push false [];
   NewNative 1; NewNative 2; NewNative 3; NewNative 4; NewNative 5; NewNative 6;
   Compact false [VObj 0; VObj 1; VObj 2; VObj 3; VObj 4; VObj 5]; NewNative 7;
   Pop (VPacked 0); Compact false []; NewNative 8; NewObj KStruct [VObj 7]; Compact false [VObj 8]]
  ++ repeat (NewNative 10) 12.

Lemma execs_reached fix_ os : forall s s', reached fix_ any s -> alloweds fix_ s os ->
  execs fix_ s os = Some s' -> reached fix_ any s'.
Proof.
  induction os as [|o os IH]; intros s s' H A E; cbn in *; [congruence|].
  destruct A as [A1 A2]. destruct (exec fix_ s o) as [s1|] eqn:E1; [|discriminate].
  apply (IH s1 s'); auto. eapply reached_step; eauto. exact Logic.I.
Qed.

(** A decision procedure for the contract, to check concrete histories by computation. *)
Definition val_eqb (u v : value) : bool := if value_eq_dec u v then true else false.
Definition usableb (s : cst) (v : value) : bool :=
  match v with
  | VNull | VPacked _ => true
  | VObj o => existsb (val_eqb v) (c_vals s (top (c_heap s)))
  | VUninit => false
  end.
Definition allowedb (s : cst) (o : op) : bool :=
  let h := c_heap s in
  match o with
  | NewObj k vs => match k with KRef | KNative _ => false | _ => forallb (usableb s) vs end
  | NewRef | NewNative _ => true
  | Assign r v => existsb (Nat.eqb r) (c_refs s (top h)) && usableb s v
  | Read o i => usableb s (VObj o)
  | Push _ vs => forallb (usableb s) vs
  | Pop v => usableb s v && (negb (top h =? 0) || negb (merges (frames h (top h)) =? 0))
  | Compact m vs => forallb (usableb s) vs && (m || (negb (top h =? 0) || negb (merges (frames h (top h)) =? 0)))
  end.
Fixpoint allowedsb (fix_ : bool) (s : cst) (os : list op) : bool :=
  match os with
  | [] => true
  | o :: os' => allowedb s o && match exec fix_ s o with Some s' => allowedsb fix_ s' os' | None => true end
  end.

Lemma usableb_ok s v : usableb s v = true -> usable s v.
Proof.
  unfold usable. destruct v as [| z |o|]; cbn; intros H; auto; [eauto| |discriminate].
  right; right. split; [discriminate|]. apply existsb_exists in H. destruct H as [u [Hu E]].
  unfold val_eqb in E. destruct (value_eq_dec (VObj o) u); [subst; auto|discriminate].
Qed.
Lemma allowedb_ok s o : allowedb s o = true -> allowed s o.
Proof.
  assert (F : forall vs, forallb (usableb s) vs = true -> forall v, In v vs -> usable s v).
  { intros vs H v Hv. rewrite forallb_forall in H. apply usableb_ok; auto. }
  assert (T : forall n, negb (n =? 0) = true -> n <> 0).
  { intros n H ->. discriminate. }
  destruct o as [k vs| |data|r v|o i|m vs|v|m vs]; cbn [allowedb allowed]; intros H; try exact Logic.I.
  - destruct k; try discriminate; (split; [split; [discriminate|intros ? ?; discriminate]|exact (F _ H)]).
  - apply andb_true_iff in H. destruct H as [H1 H2]. split; [|apply usableb_ok; auto].
    apply existsb_exists in H1. destruct H1 as [x [Hx E]]. apply Nat.eqb_eq in E. subst; auto.
  - apply usableb_ok; auto.
  - exact (F _ H).
  - apply andb_true_iff in H. destruct H as [H1 H2]. split; [apply usableb_ok; auto|].
    apply orb_true_iff in H2. destruct H2; auto.
  - apply andb_true_iff in H. destruct H as [H1 H2]. split; [exact (F _ H1)|].
    apply orb_true_iff in H2. destruct H2 as [H2|H2]; auto.
    apply orb_true_iff in H2. destruct H2; auto.
Qed.
Lemma allowedsb_ok fix_ os : forall s, allowedsb fix_ s os = true -> alloweds fix_ s os.
Proof.
  induction os as [|o os IH]; intros s H; cbn [allowedsb alloweds] in *; auto.
  apply andb_true_iff in H. destruct H as [H1 H2]. split; [apply allowedb_ok; auto|].
  destruct (exec fix_ s o); auto.
Qed.

Theorem values_in_use_intact_refuted : exists s, reached false any s /\ ~ intact s.
Proof.
  assert (A : alloweds false init early_free) by (apply allowedsb_ok; vm_compute; reflexivity).
  (* value 9 is in use, refers to object 7, and object 7 is gone *)
  assert (V : option_map (fun s => (existsb (val_eqb (VObj 9)) (c_vals s (top (c_heap s))),
                mem (c_heap s) 7, mem (c_heap s) 9)) (execs false init early_free) =
              Some (true, None, Some (mk_obj KStruct [VObj 7] (LGc 3)))) by (vm_compute; reflexivity).
  assert (N := fun s' => execs_reached false early_free init s' (reached_init _ _) A).
  revert V N. generalize (execs false init early_free) as r.
  intros [s|] V N; [|discriminate]. cbn [option_map] in V. injection V as V1 V2 V3.
  exists s. split; [apply N; reflexivity|]. intros H.
  apply existsb_exists in V1. destruct V1 as [u [Hu Eu]]. unfold val_eqb in Eu.
  destruct (value_eq_dec (VObj 9) u) as [<-|]; [|discriminate].
  destruct (H (top (c_heap s)) (VObj 9) 7 (le_n _) Hu) as [ob [Hob _]]; [|congruence].
  eapply follows_field; [apply follows_here|exact V3|left; reflexivity].
Qed.

(** The same history on the repaired code does satisfy the contract, and keeps object 7. *)
Example early_free_repaired : alloweds true init early_free /\
  option_map (fun s => mem (c_heap s) 7) (execs true init early_free) =
  Some (Some (mk_obj (KNative 8) [] (LGc 5))).
Proof. split; [apply allowedsb_ok; vm_compute; reflexivity|vm_compute; reflexivity]. Qed.

(** Non-vacuity of the partial theorems: a history with a structure holding a reference
    cycle, returned from a frame while the collector is at work on it, and collections
    afterwards. *)
Definition cycle_history : list op :=
  [Push false []; NewNative 1; NewRef; NewObj KStruct [VObj 1; VObj 0]; Compact false [VObj 2];
   NewNative 2; NewNative 3; NewObj (KUnion 1) [VObj 3]; NewRef; Assign 7 (VObj 6); Pop (VObj 7)]
  ++ repeat (NewNative 4) 10 ++ [Read 7 0; Read 8 0; Read 3 1].

Definition pop_ownedb (s : cst) (o : op) : bool :=
  match o with
  | Pop v =>
    let h := c_heap s in
    negb (merges (frames h (top h)) =? 0) ||
    match realloc h v with
    | Some (h1, v1) => owned h1 v1 (min_gen (frames h1 (top h1))) || negb (g_frame (gc h1) =? top h1)
    | None => true
    end
  | _ => true
  end.
Fixpoint pop_ownedsb (s : cst) (os : list op) : bool :=
  match os with
  | [] => true
  | o :: os' => allowedb s o && pop_ownedb s o && match exec false s o with Some s' => pop_ownedsb s' os' | None => false end
  end.

Lemma pop_ownedb_ok s o : pop_ownedb s o = true -> pop_owned s o.
Proof.
  destruct o; cbn [pop_ownedb pop_owned]; auto. intros H.
  apply orb_true_iff in H. destruct H as [H|H].
  - left. intros E. rewrite E in H. discriminate.
  - right. intros h1 v1 E. rewrite E in H. apply orb_true_iff in H. destruct H as [H|H]; auto.
    right. intros Eq. rewrite Eq, Nat.eqb_refl in H. discriminate.
Qed.

Lemma pop_ownedsb_ok os : forall s, reached false pop_owned s -> pop_ownedsb s os = true ->
  exists s', execs false s os = Some s' /\ reached false pop_owned s'.
Proof.
  induction os as [|o os IH]; intros s H E; cbn [pop_ownedsb execs] in *; [eauto|].
  apply andb_true_iff in E. destruct E as [E E2]. apply andb_true_iff in E. destruct E as [E0 E1].
  destruct (exec false s o) as [s1|] eqn:Ex; [|discriminate].
  apply (IH s1); auto. eapply reached_step; eauto; [apply allowedb_ok|apply pop_ownedb_ok]; auto.
Qed.

Example cycle_history_reached : exists s, execs false init cycle_history = Some s /\
  reached false pop_owned s.
Proof.
  apply pop_ownedsb_ok; [constructor|]. vm_compute. reflexivity.
Qed.
