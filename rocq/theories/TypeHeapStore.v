(** * Storing a reference preserves the collector's invariant. *)
From Coq Require Import List Arith Bool Lia Sorted.
Import ListNotations.
From Verif Require Import TypeHeapModel TypeHeapInv TypeHeapSem TypeHeapStep TypeHeapCycle TypeHeapGc TypeHeapOps.

(** Adding a reference to an object changes no placement. *)
Lemma set_refs_wf h o b l :
  WFG h -> WFP none h -> objs h o = Some b ->
  let h' := set_objs h (upd (objs h) o (Some (MkObj (o_gen b) (o_rc b) l))) in
  WFG h' /\ WFP none h' /\ (forall y, cls h' y = cls h y) /\
  (forall x, x <> o -> objs h' x = objs h x).
Proof.
  intros W P Ob h'.
  assert (OO : forall x, match objs h x, objs h' x with
     | Some a, Some a' => o_gen a' = o_gen a /\ o_rc a' = o_rc a
     | None, None => True | _, _ => False end).
  { intro x; cbn; unfold upd; destruct (x =? o) eqn:T.
    - apply Nat.eqb_eq in T; subst x; rewrite Ob; cbn; tauto.
    - destruct (objs h x); tauto. }
  assert (EX : forall x (q q' : obj -> Prop),
     (forall a a', o_gen a' = o_gen a -> o_rc a' = o_rc a -> (q a <-> q' a')) ->
     ((exists a, objs h x = Some a /\ q a) <-> (exists a, objs h' x = Some a /\ q' a))).
  { intros x q q' H; specialize (OO x); split; intros (a & E & Q); rewrite E in OO.
    - destruct (objs h' x) as [a'|]; [|destruct OO]; destruct OO as (A & B).
      exists a'; split; [reflexivity|apply (H a a'); assumption].
    - destruct (objs h x) as [a'|]; [|destruct OO]; destruct OO as (A & B).
      exists a'; split; [reflexivity|apply (H a' a); assumption]. }
  split; [|split; [|split]].
  - eapply WFG_same; [exact W|repeat split|reflexivity|apply W].
  - constructor.
    + intros g G x HG _; rewrite (wp_roots none h P g G x HG) by (intros []).
      apply EX; intros a a' A B; rewrite A, B. change (canon h' (o_gen a)) with (canon h (o_gen a)); tauto.
    + intros g G x HG _; rewrite (wp_non none h P g G x HG) by (intros []).
      apply EX; intros a a' A B; rewrite A, B. change (canon h' (o_gen a)) with (canon h (o_gen a)); tauto.
    + apply (wp_nodup none h P).
    + intro x; change (freel h') with (freel h); rewrite (wp_free none h P).
      apply EX; intros a a' A B; rewrite A; reflexivity.
    + intros x a' E N; specialize (OO x); rewrite E in OO; destruct (objs h x) as [a|] eqn:E0; [|destruct OO].
      destruct OO as (A & B); rewrite B; apply (wp_free_rc none h P x a E0); rewrite <- A; exact N.
    + apply (wp_free_nd none h P).
    + intros x N; apply (wp_n none h P); specialize (OO x); destruct (objs h' x); [|congruence].
      destruct (objs h x); [discriminate|destruct OO].
    + intros x a' E; specialize (OO x); rewrite E in OO; destruct (objs h x) as [a|] eqn:E0; [|destruct OO].
      destruct OO as (-> & _); apply (wp_gen none h P _ _ E0).
  - intro y; specialize (OO y); unfold cls; destruct (objs h y), (objs h' y); try tauto.
    destruct OO as (-> & _); reflexivity.
  - intros x N; cbn; apply upd_other; assumption.
Qed.

(** Where FbleTypeAddRef sends the target of a reference. *)
Definition sent (c e : gid) : option gid :=
  match c, e with
  | MARK, GC => Some MARK
  | GC, GC => None
  | _, GC => Some SAVE
  | MARK, SAVE => Some MARK
  | _, _ => None
  end.

Lemma sent_target h c e :
  (if gid_eqb e GC then if gid_eqb c MARK then Some (mark h)
     else if negb (gid_eqb c GC) then Some (save h) else None
   else if (gid_eqb c MARK && gid_eqb e SAVE)%bool then Some (mark h) else None)
  = match sent c e with Some i => Some (target h i) | None => None end.
Proof. destruct c, e; reflexivity. Qed.

Lemma store_inv h s d :
  INV h -> cls h s <> None -> cls h d <> None ->
  exists b h', objs h s = Some b /\ store h s d = Some h' /\ INV h' /\ nobjs h' = nobjs h /\
    (forall o, match objs h o, objs h' o with
               | Some a, Some a' => o_rc a' = o_rc a /\
                   o_refs a' = if o =? s then o_refs a ++ [d] else o_refs a
               | None, None => True
               | _, _ => False
               end).
Proof.
  intros [W P Sm] Ns Nd.
  destruct (cls h s) as [c|] eqn:Cs; [|congruence]; clear Ns.
  destruct (cls h d) as [e|] eqn:Cd; [|congruence]; clear Nd.
  destruct (cls_inv _ _ _ Cs) as (b & Ob & Gb).
  exists b; unfold store; rewrite Ob.
  destruct (set_refs_wf h s b (o_refs b ++ [d]) W P Ob) as (We & Pe & CLe & Oe).
  set (he := set_objs h _) in *.
  assert (Os : objs he s = Some (MkObj (o_gen b) (o_rc b) (o_refs b ++ [d]))) by (cbn; apply upd_same).
  assert (Cde : cls he d = Some e) by (rewrite CLe; assumption).
  destruct (cls_inv _ _ _ Cde) as (bd & Obd & Gbd).
  destruct (gidof_gens _ _ _ Gb) as (sg & HGs & Is).
  destruct (gidof_gens _ _ _ Gbd) as (dg & HGd & Id).
  destruct (old_gid h W) as (m & HO); destruct (gidof_gens _ _ _ HO) as (og & HGo & Io).
  destruct (gens_some h W (next h)) as (ng & HGn).
  { apply allg_in; destruct (wg_next h W) as [<-|Q]; auto. }
  assert (EN : gidof h (next h) = Some (g_id ng)) by (apply gens_gidof; assumption).
  (* edges before and after the store *)
  assert (ED : forall x y, edge he x y <-> edge h x y \/ (x = s /\ y = d)).
  { intros x y; unfold edge; destruct (Nat.eq_dec x s) as [->|NE].
    - rewrite Os, Ob; split.
      + intros (a & E & I); inversion E; subst a; cbn in I; apply in_app_iff in I.
        destruct I as [I|[<-|[]]]; eauto.
      + intros [(a & E & I)|(_ & ->)]; [inversion E; subst a|]; eexists; (split; [reflexivity|]);
          cbn; apply in_app_iff; [auto|right; left; reflexivity].
    - rewrite Oe by assumption; split; [auto|intros [H|(Q & _)]; [assumption|congruence]]. }
  unfold add_ref; rewrite Os, Obd; cbn [o_gen].
  change (gens he) with (gens h) in *; change (old he) with (old h); change (next he) with (next h).
  rewrite HGs, HGd, HGo, HGn, Is, Id, Io.
  set (k1 := (gid_leb c (OLD m) && gid_ltb c e && gid_ltb c (g_id ng))%bool).
  set (k2 := (gid_eqb c MARK && gid_eqb e NEW && gid_ltb c (g_id ng))%bool).
  set (nx := if k1 then o_gen b else if k2 then old h else next h).
  assert (EH : (if k1 then set_next he (o_gen b) else if k2 then set_next he (old h) else he) = set_next he nx).
  { unfold nx; destruct k1; [reflexivity|destruct k2; reflexivity]. }
  rewrite EH; clear EH.
  change (mark he) with (mark h); change (save he) with (save h).
  rewrite (sent_target h c e).
  (* [next] *)
  assert (COLD : gid_leb c (OLD m) = true -> exists n, c = OLD n).
  { unfold gid_leb; destruct c; cbn; try discriminate; eauto. }
  assert (LTN : forall n, gid_ltb (OLD n) (g_id ng) = true <-> lt_next h n).
  { intro n; unfold lt_next; rewrite EN.
    destruct (next_gid h W) as [T|(q & T)]; rewrite EN in T; inversion T as [T']; rewrite T'; cbn; [tauto|apply Nat.ltb_lt]. }
  assert (NXI : In nx (new h :: olds h)).
  { unfold nx; destruct k1 eqn:K1; [|destruct k2; [right; apply (old_in h W)|apply W]].
    apply andb_true_iff in K1; destruct K1 as (K1 & _); apply andb_true_iff in K1.
    destruct (COLD (proj1 K1)) as (n & ->); right; apply (gid_old h W); eauto. }
  assert (NXD : next_down h nx).
  { unfold nx; destruct k1 eqn:K1; [|destruct k2 eqn:K2].
    - apply andb_true_iff in K1; destruct K1 as (K1 & K3); apply andb_true_iff in K1.
      destruct (COLD (proj1 K1)) as (n & Ec); right; right; exists n; split; [congruence|].
      apply LTN; rewrite <- Ec; assumption.
    - right; left. apply andb_true_iff in K2; destruct K2 as (K2 & K3); apply andb_true_iff in K2.
      destruct K2 as (K2 & _); apply gid_eqb_eq in K2; rewrite K2 in K3.
      apply (gid_new h W); rewrite EN.
      destruct (next_gid h W) as [T|(q & T)]; [congruence|].
      rewrite EN in T; inversion T as [T']; rewrite T' in K3; discriminate.
    - left; reflexivity. }
  set (h1 := set_next he nx).
  assert (W1 : WFG h1) by (apply WFG_next; assumption).
  assert (P1 : WFP none h1) by (apply WFP_next; assumption).
  (* the common conclusion *)
  assert (FIN : forall h', WFG h' -> WFP none h' -> same_ptrs h h' -> next h' = nx ->
     (forall g, gidof h' g = gidof h g) -> same_objs he h' ->
     (forall y, cls h' y = match sent c e with
                           | Some i => if y =? d then Some i else cls h y
                           | None => cls h y end) ->
     (forall g, In g (olds h) -> gens h' g = gens h g) -> INV h').
  { intros h' W' P' Q' X' GD SO CL GO.
    constructor; [assumption|assumption|].
    assert (OH : old h' = old h) by (destruct Q' as (_ & _ & E & _); unfold old; rewrite E; reflexivity).
    assert (DN : forall n, lt_next h' n -> lt_next h n).
    { intro n; apply (lt_next_down h h' n GD W); rewrite X'; exact NXD. }
    assert (ED' : forall x y, edge h' x y <-> edge h x y \/ (x = s /\ y = d)).
    { intros x y; rewrite <- ED; symmetry; apply same_edge, SO. }
    assert (RB : forall x y, reach h x y -> reach h' x y).
    { intros x y; apply reach_mono; intros a q Q; apply ED'; auto. }
    assert (SN : forall i, sent c e = Some i -> (i = MARK /\ c = MARK /\ (e = GC \/ e = SAVE)) \/ (i = SAVE /\ e = GC)).
    { intros i Q; destruct c, e; cbn in Q; try discriminate; inversion Q; auto. }
    (* classes that are not moved *)
    assert (CS : forall y f, cls h y = Some f -> f <> GC -> f <> SAVE -> cls h' y = Some f).
    { intros y f C N1 N2; rewrite CL; destruct (sent c e) as [i|] eqn:Q; [|assumption].
      destruct (y =? d) eqn:T; [|assumption]. apply Nat.eqb_eq in T; subst y.
      rewrite Cd in C; inversion C; subst f. destruct (SN i eq_refl) as [(_ & _ & [?|?])|(_ & ?)]; congruence. }
    assert (CB : forall y f, cls h' y = Some f -> f <> MARK -> f <> SAVE -> cls h y = Some f).
    { intros y f C N1 N2; rewrite CL in C; destruct (sent c e) as [i|] eqn:Q; [|assumption].
      destruct (y =? d); [|assumption]. inversion C; subst f.
      destruct (SN i eq_refl) as [(? & _)|(? & _)]; congruence. }
    assert (CD : forall y f, cls h y = Some f -> exists f', cls h' y = Some f' /\ (f <> GC -> f' <> GC)).
    { intros y f C; rewrite CL; destruct (sent c e) as [i|] eqn:Q; [|eauto].
      destruct (y =? d); [|eauto]. exists i; split; [reflexivity|intros _].
      destruct (SN i eq_refl) as [(-> & _)|(-> & _)]; discriminate. }
    assert (CB' : forall y f, cls h' y = Some f -> cls h y <> None).
    { intros y f C; rewrite CL in C; destruct (sent c e) as [i|]; [|congruence].
      destruct (y =? d) eqn:T; [apply Nat.eqb_eq in T; subst y|]; congruence. }
    constructor.
    - intros x y f C E; apply ED' in E; destruct E as [E|(-> & ->)].
      + destruct (cls h x) as [f0|] eqn:C0; [|exfalso; apply (CB' _ _ C C0)].
        destruct (s1 h Sm x y f0 C0 E) as (g & D & H); destruct (CD _ _ D) as (g' & D' & H').
        exists g'; split; [assumption|]; intro Q.
        assert (f0 = f).
        { assert (Z : cls h x = Some f) by (apply CB; [assumption|destruct Q as [->|(n & ->)]; discriminate|destruct Q as [->|(n & ->)]; discriminate]).
          congruence. }
        subst f0; auto.
      + destruct (CD _ _ Cd) as (g' & D' & H'); exists g'; split; [assumption|]; intro Q.
        assert (Z : cls h s = Some f) by (apply CB; [assumption|destruct Q as [->|(n & ->)]; discriminate|destruct Q as [->|(n & ->)]; discriminate]).
        rewrite Cs in Z; inversion Z; subst f.
        rewrite CL in D'; destruct e; try (apply H'; discriminate).
        destruct Q as [->|(n & ->)]; cbn in D'; rewrite Nat.eqb_refl in D'; inversion D'; discriminate.
    - intros x y n C L E; rewrite OH, GD; apply ED' in E.
      assert (C0 : cls h x = Some (OLD n)) by (apply CB; [assumption|discriminate|discriminate]).
      destruct E as [E|(-> & ->)].
      + destruct (s2 h Sm x y n C0 (DN n L) E) as [(q & D & K)|(D & K)]; [left; exists q|right]; split; auto;
          apply CS; auto; discriminate.
      + left; rewrite Cs in C0; injection C0 as Ec.
        assert (K1 : gid_ltb (OLD n) e = false).
        { destruct (gid_ltb (OLD n) e) eqn:K; [exfalso|reflexivity].
          assert (K1 : k1 = true).
          { unfold k1; rewrite Ec, K; pose proof (DN n L) as Lh; apply LTN in Lh; rewrite Lh, !andb_true_r.
            rewrite Ec in Gb; destruct (old_max h W _ _ Gb) as (q & Eq_ & Lq); rewrite HO in Eq_; inversion Eq_; subst q.
            unfold gid_leb; cbn; apply negb_true_iff, Nat.ltb_ge; assumption. }
          unfold lt_next in L; rewrite GD, X' in L; unfold nx in L; rewrite K1, Gb, Ec in L; lia. }
        destruct e as [q| | | |]; cbn in K1; try discriminate.
        apply Nat.ltb_ge in K1; exists q; split; [|assumption].
        apply CS; [assumption|discriminate|discriminate].
    - intros g G n y HG IG L HY; rewrite OH in HY.
      assert (Gg : gidof h g = Some (OLD n)) by (rewrite <- GD, (gens_gidof _ _ _ HG), IG; reflexivity).
      assert (HG0 : gens h g = Some G) by (rewrite <- (GO g); [assumption|apply (gid_old h W); eauto]).
      assert (HY' : (cls h y = Some (OLD n) \/ (cls h y = Some MARK /\ g = old h)) \/
                    (y = d /\ c = MARK /\ g = old h)).
      { destruct HY as [HY|(HY & Q)]; [left; left; apply CB; [assumption|discriminate|discriminate]|].
        rewrite CL in HY; destruct (sent c e) as [i|] eqn:Si; [|auto].
        destruct (y =? d) eqn:T; [|auto]. apply Nat.eqb_eq in T; inversion HY; subst i.
        destruct (SN MARK eq_refl) as [(_ & Z & _)|(Z & _)]; [auto|discriminate]. }
      destruct HY' as [HY'|(-> & Ec & Eg)].
      + destruct (s3 h Sm g G n y HG0 IG (DN n L) HY') as (r & l & E1 & E2); exists r, l; auto.
      + destruct (s3 h Sm g G n s HG0 IG (DN n L)) as (r & l & E1 & E2); [right; split; congruence|].
        exists r, l; split; [assumption|]. eapply reach_step; [apply RB; exact E2|apply ED'; auto]. }
  assert (GEN : forall h', same_objs he h' -> nobjs h' = nobjs h ->
     (forall o, match objs h o, objs h' o with
               | Some a, Some a' => o_rc a' = o_rc a /\
                   o_refs a' = if o =? s then o_refs a ++ [d] else o_refs a
               | None, None => True | _, _ => False end)).
  { intros h' SO _ o; specialize (SO o); destruct (o =? s) eqn:T.
    - apply Nat.eqb_eq in T; subst o; rewrite Os in SO; rewrite Ob; destruct (objs h' s); [|destruct SO].
      cbn in SO; exact SO.
    - apply Nat.eqb_neq in T; rewrite Oe in SO by assumption; exact SO. }
  destruct (sent c e) as [i|] eqn:Si.
  - assert (TI : i = MARK \/ i = SAVE) by (destruct c, e; cbn in Si; try discriminate; inversion Si; auto).
    assert (TG : gidof h1 (target h i) = Some i).
    { change (gidof h1 (target h i)) with (gidof h (target h i)).
      destruct TI; subst i; [apply (wg_mark h W)|apply (wg_save h W)]. }
    set (b' := MkObj (target h i) (o_rc bd) (o_refs bd)).
    assert (Obd1 : objs h1 d = Some bd) by exact Obd.
    assert (Ngd : gens h1 (o_gen bd) <> None).
    { change (gens h1 (o_gen bd)) with (gens h (o_gen bd)); congruence. }
    destruct (relocate none h1 d bd b' false (if o_rc bd =? 0 then NonRoots else Roots) W1 P1 Obd1 Ngd)
      as (h' & M & W' & P' & O' & Q' & X' & G' & F' & L').
    { apply (gidof_some h1 W1 _ i); exact TG. }
    { apply (canon_id h1 W1); cbn [o_gen b']; rewrite TG; destruct TI; subst i; discriminate. }
    { cbn; destruct (o_rc bd =? 0) eqn:E; [apply Nat.eqb_eq in E|apply Nat.eqb_neq in E];
        split; intros; try congruence; tauto. }
    assert (SO : same_objs he h').
    { eapply (same_objs_upd he h' d bd b'); auto. }
    assert (GD : forall g, gidof h' g = gidof h g) by (intro; rewrite G'; reflexivity).
    exists h'; split; [reflexivity|]. split; [exact M|]. split; [|split; [apply Q'|apply GEN; [assumption|apply Q']]].
    apply FIN; auto.
    + eapply WFP_mono; [|exact P']; intros o (E & _); exact E.
    + intro y; rewrite (cls_upd he h' d b' O' GD y); cbn [o_gen b'].
      destruct (y =? d); [exact TG|apply CLe].
    + intros g Ig.
      destruct (wg_old h W _ Ig) as (n & En); destruct (gidof_gens _ _ _ En) as (G & HG & IG).
      rewrite (L' g G HG), HG; cbn [o_gen b'].
      assert (T : (g =? target h i) = false).
      { apply Nat.eqb_neq; intros ->; change (gidof h1 (target h i)) with (gidof h (target h i)) in TG.
        rewrite TG in En; destruct TI; congruence. }
      rewrite T; f_equal.
      assert (CN : canon h (o_gen bd) <> g).
      { intros <-; rewrite (canon_gid h W) in En. change (gidof he (o_gen bd)) with (gidof h (o_gen bd)) in Gbd.
        rewrite Gbd in En; injection En as Ee; rewrite Ee in Si; destruct c; discriminate. }
      destruct (not_in_other he d bd g G Pe Obd HG CN) as (A & B); apply unlink_nin; assumption.
  - exists h1; split; [reflexivity|]. split; [reflexivity|].
    assert (SO : same_objs he h1) by (intro o; cbn [objs h1 set_next]; destruct (objs he o); auto).
    split; [|split; [reflexivity|apply GEN; [assumption|reflexivity]]].
    apply FIN; auto.
    repeat split.
Qed.
