(** * FblePopFrame and CompactFrame preserve the invariant. *)

From Coq Require Import Arith List Bool Lia.
From Verif Require Import GcModel GcInv GcStep GcAlloc GcFrames GcSink.
Import ListNotations.

Lemma inl_move_list_to os : forall h dst l x,
  inl (move_list_to h dst os) l x <-> (In x os /\ l = dst) \/ (~ In x os /\ inl h l x).
Proof.
  induction os as [|o os IH]; intros h dst l x.
  - cbn. tauto.
  - unfold move_list_to in *. cbn [fold_left In]. rewrite IH, inl_move_to.
    destruct (in_dec Nat.eq_dec x os) as [H|H]; destruct (Nat.eq_dec o x) as [->|Hn]; intuition congruence.
Qed.

Lemma move_list_to_same os : forall h dst, let h' := move_list_to h dst os in
  mem h' = mem h /\ fresh h' = fresh h /\ frames h' = frames h /\ top h' = top h /\ gc h' = gc h /\
  freed h' = freed h.
Proof.
  induction os as [|o os IH]; intros h dst; cbn zeta.
  - repeat split.
  - unfold move_list_to. cbn [fold_left]. apply (IH (move_to h dst o) dst).
Qed.
Lemma mlt_mem h dst os : mem (move_list_to h dst os) = mem h. Proof. apply move_list_to_same. Qed.
Lemma mlt_fresh h dst os : fresh (move_list_to h dst os) = fresh h. Proof. apply move_list_to_same. Qed.
Lemma mlt_frames h dst os : frames (move_list_to h dst os) = frames h. Proof. apply move_list_to_same. Qed.
Lemma mlt_top h dst os : top (move_list_to h dst os) = top h. Proof. apply move_list_to_same. Qed.
Lemma mlt_gc h dst os : gc (move_list_to h dst os) = gc h. Proof. apply move_list_to_same. Qed.
Lemma mlt_freed h dst os : freed (move_list_to h dst os) = freed h. Proof. apply move_list_to_same. Qed.

Lemma lists_ok_move_list_to os : forall h dst, lists_ok h -> lists_ok (move_list_to h dst os).
Proof.
  induction os as [|o os IH]; intros h dst H; [exact H|].
  unfold move_list_to. cbn [fold_left]. apply IH. apply lists_ok_move_to. auto.
Qed.

(** The generation tests of the code identify the objects of the top frame and the
    objects undergoing collection. *)
Lemma owned_fr h R P B v : Inv h R P B -> In v (R (top h)) -> gcval (mem h) v ->
  (owned h v (min_gen (frames h (top h))) = true <-> exists x, v = VObj x /\ fr h x (top h)).
Proof.
  intros I Hv Hg. unfold owned, gen_of. destruct v as [|z|x|].
  - split; [discriminate|intros [y [H _]]; discriminate].
  - split; [discriminate|intros [y [H _]]; discriminate].
  - destruct Hg as [g [ob [Hm Hl]]]. rewrite Hm, Hl. rewrite Nat.leb_le.
    destruct (i_root _ _ _ _ I (top h) x (le_n _) Hv) as [Hn _].
    destruct (nf_fr I _ Hn) as [e He]. pose proof (fr_top I _ _ He) as Ht.
    assert (Hgx : genx (mem h) x g) by (exists ob; auto).
    pose proof (root_range I (top h) x e g (le_n _) Hv He Hgx) as Hr.
    split.
    + intros Hle. exists x. split; auto. destruct (Nat.eq_dec e (top h)) as [->|]; auto.
      pose proof (chain I e (top h) ltac:(lia) (le_n _)). lia.
    + intros [y [[= <-] Hy]]. assert (e = top h) by (eapply (fr_unique I); eauto). subst e. lia.
  - contradiction.
Qed.

Lemma undergoing_ingc h R P B v : Inv h R P B -> In v (R (top h)) -> gcval (mem h) v ->
  (undergoing h v = true <-> exists x, v = VObj x /\ ingc h x).
Proof.
  intros I Hv Hg. unfold undergoing, gen_of. destruct v as [|z|x|].
  - split; [discriminate|intros [y [H _]]; discriminate].
  - split; [discriminate|intros [y [H _]]; discriminate].
  - destruct Hg as [g [ob [Hm Hl]]]. rewrite Hm, Hl.
    rewrite !andb_true_iff, negb_true_iff, Nat.leb_le, Nat.ltb_lt, Nat.eqb_neq.
    assert (Hgx : genx (mem h) x g) by (exists ob; auto).
    pose proof (root_undergoing I (top h) x g (le_n _) Hv Hgx) as Hu.
    split.
    + intros [[H1 H2] H3]. exists x. split; auto. apply Hu. auto.
    + intros [y [[= <-] Hy]]. apply Hu in Hy. tauto.
  - contradiction.
Qed.

Lemma gen_of_kill h d v : gen_of (set_mem h (kill_stack (mem h) d)) v = gen_of h v.
Proof.
  destruct v as [| |x|]; auto. cbn. unfold kill_stack.
  destruct (mem h x) as [ob|] eqn:E; auto.
  destruct (oloc ob) as [p e|g] eqn:El; [|rewrite El; auto].
  destruct (Nat.eq_dec e d); auto. rewrite El. auto.
Qed.
Lemma owned_kill h d v mn : owned (set_mem h (kill_stack (mem h) d)) v mn = owned h v mn.
Proof. unfold owned. rewrite gen_of_kill. reflexivity. Qed.
Lemma undergoing_kill h d v : undergoing (set_mem h (kill_stack (mem h) d)) v = undergoing h v.
Proof. unfold undergoing. rewrite gen_of_kill. reflexivity. Qed.

Lemma in_obj_of x v : In x (obj_of v) <-> v = VObj x.
Proof. destruct v; cbn; intuition congruence. Qed.

Lemma inl_filter_obj (f : value -> bool) vs x :
  In x (flat_map (fun v => if f v then obj_of v else []) vs) <-> In (VObj x) vs /\ f (VObj x) = true.
Proof.
  rewrite in_flat_map. split.
  - intros [v [H1 H2]]. destruct (f v) eqn:E; [|destruct H2]. apply in_obj_of in H2. subst. auto.
  - intros [H1 H2]. exists (VObj x). rewrite H2. cbn. auto.
Qed.

Lemma value_eq_dec (a b : value) : {a = b} + {a <> b}.
Proof. decide equality; apply Nat.eq_dec. Defined.

(** ** FblePopFrame *)

Definition pop_tail (fix_ : bool) (h1 : heap) (v1 : value) (d c : nat) : heap :=
  let h2 := set_top h1 c in
  let h3 := move_all (move_all (move_all h2 (Unm c) (Unm d)) (Unm c) (Mrk d)) (Unm c) (All d) in
  let f1 := frames h3 d in
  let fc := frames h3 c in
  let own := owned h3 v1 (min_gen f1) in
  let h4 := if own || fix_ then
              set_frames h3 (upd (frames h3) c (mk_frame (merges fc) (min_gen fc) (gen fc) (max_gen f1)))
            else h3 in
  let h4 := if own then move_list_to h4 (Mrk c) (obj_of v1) else h4 in
  let h5 :=
    if Nat.eq_dec (g_frame (gc h4)) d then
      if undergoing h4 v1 then
        set_gc (move_list_to h4 GMrk (obj_of v1)) (set_interrupted (gc h4) c (obj_of v1))
      else set_gc h4 (set_interrupted (gc h4) c [])
    else h4 in
  let h6 :=
    match g_next (gc h5) with
    | None => set_gc h5 (set_next (gc h5) (Some c))
    | Some n => if Nat.eq_dec n d then set_gc h5 (set_next (gc h5) (Some c)) else h5
    end in
  set_mem h6 (kill_stack (mem h6) d).

Lemma pop_eq fix_ h v c : top h = S c -> merges (frames h (top h)) = 0 ->
  pop fix_ h v = match realloc h v with
                 | None => None
                 | Some (h1, v1) => Some (pop_tail fix_ h1 v1 (top h) c, v1)
                 end.
Proof. intros Ht Hm. unfold pop. rewrite Hm, Ht. reflexivity. Qed.

(** What the rest of FblePopFrame does, in terms of two tests. *)
Definition own_of (h1 : heap) (v1 : value) (d : nat) : bool := owned h1 v1 (min_gen (frames h1 d)).

Lemma pop_tail_shape fix_ h1 v1 d c : S c = d -> lists_ok h1 ->
  let own := own_of h1 v1 d in
  let und := undergoing h1 v1 in
  let gf := if Nat.eq_dec (g_frame (gc h1)) d then true else false in
  let h' := pop_tail fix_ h1 v1 d c in
  top h' = c /\ mem h' = kill_stack (mem h1) d /\ fresh h' = fresh h1 /\ freed h' = freed h1 /\
  lists_ok h' /\
  frames h' = (if own || fix_ then upd (frames h1) c
     (mk_frame (merges (frames h1 c)) (min_gen (frames h1 c)) (gen (frames h1 c)) (max_gen (frames h1 d)))
     else frames h1) /\
  gc h' = mk_gc (g_gen (gc h1)) (g_min (gc h1)) (g_max (gc h1))
     (if gf then c else g_frame (gc h1))
     (match g_next (gc h1) with None => Some c | Some n => if Nat.eq_dec n d then Some c else Some n end)
     (if gf then true else g_int (gc h1))
     (if gf then if und then obj_of v1 else [] else g_save (gc h1)) /\
  (forall l x, inl h' l x <->
     (gf && und = true /\ v1 = VObj x /\ l = GMrk) \/
     (~ (gf && und = true /\ v1 = VObj x) /\
       ((own = true /\ v1 = VObj x /\ l = Mrk c) \/
        (~ (own = true /\ v1 = VObj x) /\
          ((l = Unm c /\ (inl h1 (Unm c) x \/ inl h1 (Unm d) x \/ inl h1 (Mrk d) x \/ inl h1 (All d) x)) \/
           (l <> Unm c /\ l <> Unm d /\ l <> Mrk d /\ l <> All d /\ inl h1 l x)))))).
Proof.
  intros Hc Hok. cbn zeta.
  set (own := own_of h1 v1 d). set (und := undergoing h1 v1).
  set (gf := if Nat.eq_dec (g_frame (gc h1)) d then true else false).
  unfold pop_tail.
  set (h3 := move_all (move_all (move_all (set_top h1 c) (Unm c) (Unm d)) (Unm c) (Mrk d)) (Unm c) (All d)).
  assert (Hn : Unm c <> Unm d) by (intros [= E]; lia).
  assert (L3 : forall l x, inl h3 l x <->
    ((l = Unm c /\ (inl h1 (Unm c) x \/ inl h1 (Unm d) x \/ inl h1 (Mrk d) x \/ inl h1 (All d) x)) \/
           (l <> Unm c /\ l <> Unm d /\ l <> Mrk d /\ l <> All d /\ inl h1 l x))).
  { intros l x. unfold h3. rewrite !inl_move_all by (auto; discriminate).
    change (inl (set_top h1 c)) with (inl h1). intuition congruence. }
  assert (Ok3 : lists_ok h3).
  { unfold h3. apply lists_ok_move_all; [discriminate|]. apply lists_ok_move_all; [discriminate|].
    apply lists_ok_move_all; auto. }
  assert (M3 : mem h3 = mem h1) by reflexivity.
  assert (F3 : frames h3 = frames h1) by reflexivity.
  assert (G3 : gc h3 = gc h1) by reflexivity.
  assert (T3 : top h3 = c) by reflexivity.
  assert (Fr3 : fresh h3 = fresh h1) by reflexivity.
  assert (Fd3 : freed h3 = freed h1) by reflexivity.
  assert (Ow3 : owned h3 v1 (min_gen (frames h3 d)) = own) by reflexivity.
  clearbody h3. rewrite Ow3, F3.
  set (h4a := if own || fix_ then _ else h3).
  assert (A4 : (forall l x, inl h4a l x <-> inl h3 l x) /\ lists_ok h4a /\ mem h4a = mem h1 /\
     gc h4a = gc h1 /\ top h4a = c /\ fresh h4a = fresh h1 /\ freed h4a = freed h1 /\
     frames h4a = (if own || fix_ then upd (frames h1) c
     (mk_frame (merges (frames h1 c)) (min_gen (frames h1 c)) (gen (frames h1 c)) (max_gen (frames h1 d)))
     else frames h1)).
  { unfold h4a. destruct (own || fix_); cbn [set_frames mem gc top fresh freed frames];
      (split; [reflexivity|]); (split; [exact Ok3|]); auto 10. }
  destruct A4 as [L4 [Ok4 [M4 [G4 [T4 [Fr4 [Fd4 F4]]]]]]]. clearbody h4a.
  set (h4 := if own then move_list_to h4a (Mrk c) (obj_of v1) else h4a).
  assert (A5 : (forall l x, inl h4 l x <-> (own = true /\ v1 = VObj x /\ l = Mrk c) \/
        (~ (own = true /\ v1 = VObj x) /\ inl h3 l x)) /\ lists_ok h4 /\ mem h4 = mem h1 /\
     gc h4 = gc h1 /\ top h4 = c /\ fresh h4 = fresh h1 /\ freed h4 = freed h1 /\ frames h4 = frames h4a).
  { unfold h4. destruct own.
    - rewrite mlt_mem, mlt_gc, mlt_top, mlt_fresh, mlt_frames, mlt_freed.
      split; [|split; [apply lists_ok_move_list_to; auto|auto 10]].
      intros l x. rewrite inl_move_list_to, in_obj_of, L4. tauto.
    - split; [|split; [auto|auto 10]]. intros l x. rewrite L4. intuition discriminate. }
  destruct A5 as [L5 [Ok5 [M5 [G5 [T5 [Fr5 [Fd5 F5]]]]]]]. clearbody h4. rewrite G5.
  assert (U5 : undergoing h4 v1 = und).
  { unfold und, undergoing, gen_of. rewrite M5, G5. reflexivity. }
  rewrite U5.
  set (h5 := if Nat.eq_dec (g_frame (gc h1)) d then _ else h4).
  assert (A6 : (forall l x, inl h5 l x <-> (gf && und = true /\ v1 = VObj x /\ l = GMrk) \/
        (~ (gf && und = true /\ v1 = VObj x) /\ inl h4 l x)) /\ lists_ok h5 /\ mem h5 = mem h1 /\
     top h5 = c /\ fresh h5 = fresh h1 /\ freed h5 = freed h1 /\ frames h5 = frames h4a /\
     gc h5 = mk_gc (g_gen (gc h1)) (g_min (gc h1)) (g_max (gc h1))
     (if gf then c else g_frame (gc h1)) (g_next (gc h1)) (if gf then true else g_int (gc h1))
     (if gf then if und then obj_of v1 else [] else g_save (gc h1))).
  { unfold h5, gf. destruct (Nat.eq_dec (g_frame (gc h1)) d) as [Hg|Hg].
    - destruct und.
      + cbn [set_gc mem gc top fresh freed frames]. rewrite mlt_mem, mlt_top, mlt_fresh, mlt_frames, mlt_freed.
        split; [|split; [apply lists_ok_move_list_to; auto|repeat split; auto]].
        intros l x. change (inl (set_gc ?a ?b) l x) with (inl a l x).
        rewrite inl_move_list_to, in_obj_of. cbn. tauto.
      + cbn [set_gc mem gc top fresh freed frames].
        split; [|split; [auto|repeat split; auto]].
        intros l x. change (inl (set_gc h4 _) l x) with (inl h4 l x). cbn. intuition discriminate.
    - split; [|split; [auto|repeat split; auto]].
      + intros l x. cbn. intuition discriminate.
      + rewrite G5. destruct (gc h1); reflexivity. }
  destruct A6 as [L6 [Ok6 [M6 [T6 [Fr6 [Fd6 [F6 G6]]]]]]]. clearbody h5.
  set (h6 := match g_next (gc h5) with None => _ | Some n => _ end).
  assert (A7 : lists h6 = lists h5 /\ mem h6 = mem h1 /\
     top h6 = c /\ fresh h6 = fresh h1 /\ freed h6 = freed h1 /\ frames h6 = frames h4a /\
     gc h6 = mk_gc (g_gen (gc h1)) (g_min (gc h1)) (g_max (gc h1))
     (if gf then c else g_frame (gc h1))
     (match g_next (gc h1) with None => Some c | Some n => if Nat.eq_dec n d then Some c else Some n end)
     (if gf then true else g_int (gc h1))
     (if gf then if und then obj_of v1 else [] else g_save (gc h1))).
  { unfold h6. rewrite G6. cbn [g_next]. destruct (g_next (gc h1)) as [n|]; [destruct (Nat.eq_dec n d)|];
      cbn [set_gc lists mem top fresh freed frames gc]; repeat split; auto. }
  destruct A7 as [L7 [M7 [T7 [Fr7 [Fd7 [F7 G7]]]]]]. clearbody h6.
  assert (Lx : forall m l x, inl (set_mem h6 m) l x <-> inl h5 l x).
  { intros m l x. unfold inl. cbn [set_mem lists]. rewrite L7. reflexivity. }
  cbn [set_mem mem top fresh freed frames gc]. rewrite M7, F7, F4.
  split; [auto|]. split; [auto|]. split; [auto|]. split; [auto|].
  split.
  { unfold lists_ok. cbn [set_mem lists]. split.
    - intros l l' x. rewrite !Lx. apply Ok6.
    - rewrite L7. apply Ok6. }
  split; [auto|]. split; [auto|].
  intros l x. rewrite Lx, L6, L5, L3. reflexivity.
Qed.

Section pop.
  Context {h : heap} {R : nat -> list value} {P : nat -> list nat}.
  Context (I : Inv h R P []) (v : value) (Hv : In v (R (top h))) (Hg : gcval (mem h) v).
  Context (c : nat) (Hc : S c = top h) (fix_ : bool).
  Context (Hok : fix_ = true \/ own_of h v (top h) = true \/ g_frame (gc h) <> top h).

  Lemma pop_tail_inv : Inv (pop_tail fix_ h v (top h) c) (upd R c (v :: R c)) P [].
  Proof.
    destruct (pop_tail_shape fix_ h v (top h) c Hc (inv_lists_ok _ _ _ _ I))
      as [T1 [M1 [Fr1 [Fd1 [Ok1 [F1 [G1 L1]]]]]]].
    set (h' := pop_tail fix_ h v (top h) c) in *. clearbody h'.
    set (hk := set_mem h (kill_stack (mem h) (top h))).
    assert (Ik : Inv hk (upd R (top h) [v]) P []).
    { apply (kill_inv I). intros u [<-|[]]. auto. }
    assert (Hvk : In v (upd R (top h) [v] (top hk))).
    { unfold upd. change (top hk) with (top h). destruct (Nat.eq_dec (top h) (top h)); [left; reflexivity|congruence]. }
    assert (Hgk : gcval (mem hk) v).
    { clear - Hg. destruct v as [| |x|]; try exact Logic.I; [|contradiction].
      apply (ki_gcobj (h := h)). exact Hg. }
    pose proof (owned_fr _ _ _ _ _ Ik Hvk Hgk) as Hown.
    pose proof (undergoing_ingc _ _ _ _ _ Ik Hvk Hgk) as Hund.
    assert (Eo : owned hk v (min_gen (frames hk (top hk))) = own_of h v (top h)).
    { apply owned_kill. }
    assert (Eu : undergoing hk v = undergoing h v) by apply undergoing_kill.
    rewrite Eo in Hown. rewrite Eu in Hund. clear Eo Eu.
    set (own := own_of h v (top h)) in *. set (und := undergoing h v) in *.
    set (gf := if Nat.eq_dec (g_frame (gc h)) (top h) then true else false) in *.
    assert (Hgf : gf = true <-> g_frame (gc h) = top h).
    { unfold gf. destruct (Nat.eq_dec (g_frame (gc h)) (top h)); intuition congruence. }
    set (d := top h) in *.
    assert (Hinl : forall l x, inl hk l x <-> inl h l x) by reflexivity.
    assert (HK : forall x, (In (VObj x) [v] /\ fr hk x d) <-> (own = true /\ v = VObj x)).
    { intros x. cbn [In]. split.
      - intros [[->|[]] Hf]. split; auto. apply Hown. eauto.
      - intros [Ho ->]. split; auto. apply Hown in Ho. destruct Ho as [y [[= <-] Hy]]. auto. }
    assert (HS : forall x, (g_frame (gc hk) = d /\ In (VObj x) [v] /\ ingc hk x) <-> (gf && und = true /\ v = VObj x)).
    { intros x. cbn [In]. rewrite andb_true_iff, Hgf. cbn [gc hk set_mem]. split.
      - intros [H1 [[->|[]] H2]]. split; auto. split; auto. apply Hund. eauto.
      - intros [[H1 H2] ->]. split; auto. split; auto. apply Hund in H2. destruct H2 as [y [[= <-] Hy]]. auto. }
    assert (HSK : gf && und = true -> own = true).
    { rewrite andb_true_iff, Hgf. intros [H1 H2]. apply Hund in H2. destruct H2 as [y [-> Hy]].
      apply Hown. exists y. split; auto. right; right; right; left. auto. }
    apply (sink_inv (h := hk) (h' := h') Ik d c eq_refl (or_intror Hc)) with (vs := [v]).
    - intros x. apply ki_no.
    - intros x [->|[]]. exact Hvk.
    - intros [->|[]]. exact Hgk.
    - exact T1.
    - exact M1.
    - exact Fr1.
    - exact Ok1.
    - intros e x. cbn beta. rewrite HK, L1, !Hinl.
      assert (Hucd : Unm c <> Unm d) by (intros [= E]; lia).
      assert (Hdn : forall y, Unm e <> Mrk y /\ Unm e <> All y /\ Unm e <> GMrk) by (intros y; repeat split; discriminate).
      destruct (Hdn c) as [D1 [D2 D3]]. destruct (Hdn d) as [D4 [D5 _]].
      assert (Hab : c < e -> ~ inl h (Unm e) x \/ e = d).
      { intros He. destruct (Nat.eq_dec e d); auto. left. unfold inl.
        destruct (i_above _ _ _ _ I e) as [H1 _]; [fold d; lia|]. rewrite H1. auto. }
      assert (Hec : Unm e = Unm c <-> e = c) by (split; [intros [= E]; auto|intros ->; auto]).
      assert (Hed : Unm e = Unm d <-> e = d) by (split; [intros [= E]; auto|intros ->; auto]).
      rewrite Hec, Hed.
      assert (Hnk : inl h (Unm e) x -> e <> d -> ~ (own = true /\ v = VObj x)).
      { intros H1 H2 H3. apply HK in H3. destruct H3 as [_ H3]. apply H2.
        eapply (fr_unique Ik); eauto. left. auto. }
      assert (Hnk' : ~ (own = true /\ v = VObj x) -> ~ (gf && und = true /\ v = VObj x)) by tauto.
      destruct (lt_eq_lt_dec e c) as [[Hl|He]|Hl].
      + assert (e <> c) by lia. assert (e <> d) by lia. tauto.
      + assert (~ e < c) by lia. assert (e <> d) by lia. tauto.
      + assert (~ e < c) by lia. assert (e <> c) by lia. specialize (Hab Hl). tauto.
    - intros e x. cbn beta. rewrite HK, HS, L1, !Hinl.
      assert (Hdn : forall y, Mrk e <> Unm y /\ Mrk e <> All y /\ Mrk e <> GMrk) by (intros y; repeat split; discriminate).
      destruct (Hdn c) as [D1 [D2 D3]]. destruct (Hdn d) as [D4 [D5 _]].
      assert (Hab : c < e -> ~ inl h (Mrk e) x \/ e = d).
      { intros He. destruct (Nat.eq_dec e d); auto. left. unfold inl.
        destruct (i_above _ _ _ _ I e) as [_ [H1 _]]; [fold d; lia|]. rewrite H1. auto. }
      assert (Hec : Mrk e = Mrk c <-> e = c) by (split; [intros [= E]; auto|intros ->; auto]).
      assert (Hed : Mrk e = Mrk d <-> e = d) by (split; [intros [= E]; auto|intros ->; auto]).
      rewrite Hec, Hed.
      assert (Hnk : inl h (Mrk e) x -> e <> d -> ~ (own = true /\ v = VObj x)).
      { intros H1 H2 H3. apply HK in H3. destruct H3 as [_ H3]. apply H2.
        eapply (fr_unique Ik); eauto. right; left. auto. }
      assert (Hnk' : ~ (own = true /\ v = VObj x) -> ~ (gf && und = true /\ v = VObj x)) by tauto.
      destruct (lt_eq_lt_dec e c) as [[Hl|He]|Hl].
      + assert (e <> c) by lia. assert (e <> d) by lia. assert (e <= c) by lia. tauto.
      + assert (e <= c) by lia. assert (e <> d) by lia. tauto.
      + assert (~ e <= c) by lia. assert (e <> c) by lia. specialize (Hab Hl). tauto.
    - intros e x. rewrite L1, !Hinl.
      assert (Hdn : forall y, All e <> Unm y /\ All e <> Mrk y /\ All e <> GMrk) by (intros y; repeat split; discriminate).
      destruct (Hdn c) as [D1 [D2 D3]]. destruct (Hdn d) as [D4 [D5 _]].
      assert (Hab : c < e -> ~ inl h (All e) x \/ e = d).
      { intros He. destruct (Nat.eq_dec e d); auto. left. unfold inl.
        destruct (i_above _ _ _ _ I e) as [_ [_ H1]]; [fold d; lia|]. rewrite H1. auto. }
      assert (Hed : All e = All d <-> e = d) by (split; [intros [= E]; auto|intros ->; auto]).
      rewrite Hed.
      assert (Hnk : inl h (All e) x -> e <> d -> ~ (own = true /\ v = VObj x)).
      { intros H1 H2 H3. apply HK in H3. destruct H3 as [_ H3]. apply H2.
        eapply (fr_unique Ik); eauto. right; right; left. auto. }
      assert (Hnk' : ~ (own = true /\ v = VObj x) -> ~ (gf && und = true /\ v = VObj x)) by tauto.
      destruct (le_lt_dec e c) as [Hl|Hl].
      + assert (e <> d) by lia. tauto.
      + assert (~ e <= c) by lia. specialize (Hab Hl). tauto.
    - intros x. cbn beta; rewrite HS, L1, !Hinl.
      assert (D : GMrk <> Unm c /\ GMrk <> Mrk c /\ GMrk <> Unm d /\ GMrk <> Mrk d /\ GMrk <> All d) by (repeat split; discriminate).
      assert (Hnk : inl h GMrk x -> (own = true /\ v = VObj x) -> gf && und = true /\ v = VObj x).
      { intros H1 H3. apply HS. apply HK in H3. destruct H3 as [H2 H3].
        assert (H4 : fr hk x (g_frame (gc hk))) by (right; right; right; left; auto).
        split; [eapply (fr_unique Ik); eauto|]. split; auto. left; auto. }
      assert (Dec : (gf && und = true /\ v = VObj x) \/ ~ (gf && und = true /\ v = VObj x)).
      { destruct (gf && und); [|right; intuition discriminate].
        destruct (value_eq_dec v (VObj x)); tauto. }
      tauto.
    - intros x. cbn beta; rewrite HS, L1, !Hinl.
      assert (D : GUnm <> Unm c /\ GUnm <> Mrk c /\ GUnm <> Unm d /\ GUnm <> Mrk d /\ GUnm <> All d /\ GUnm <> GMrk) by (repeat split; discriminate).
      assert (Hnk : inl h GUnm x -> (own = true /\ v = VObj x) -> gf && und = true /\ v = VObj x).
      { intros H1 H3. apply HS. apply HK in H3. destruct H3 as [H2 H3].
        assert (H4 : fr hk x (g_frame (gc hk))) by (right; right; right; left; auto).
        split; [eapply (fr_unique Ik); eauto|]. split; auto. right; auto. }
      tauto.
    - intros x. rewrite L1, !Hinl.
      assert (D : GFree <> Unm c /\ GFree <> Mrk c /\ GFree <> Unm d /\ GFree <> Mrk d /\ GFree <> All d /\ GFree <> GMrk) by (repeat split; discriminate).
      assert (Hnk : inl h GFree x -> ~ (own = true /\ v = VObj x)).
      { intros H1 H3. apply HK in H3. destruct H3 as [H2 H3]. destruct H2 as [H2|[]]. subst v.
        destruct (i_root _ _ _ _ Ik (top hk) x (le_n _) Hvk) as [[_ Hx] _]. apply Hx. exact H1. }
      assert (Hnk' : ~ (own = true /\ v = VObj x) -> ~ (gf && und = true /\ v = VObj x)) by tauto.
      tauto.
    - intros e He. rewrite F1. destruct (own || fix_); auto. unfold upd. destruct (Nat.eq_dec e c); [lia|auto].
    - rewrite F1. destruct (own || fix_); auto. unfold upd. destruct (Nat.eq_dec c c); [auto|lia].
    - left. split; [lia|]. rewrite F1. destruct (own || fix_); auto. unfold upd. destruct (Nat.eq_dec c c); [auto|lia].
    - rewrite F1. destruct (own || fix_); auto. unfold upd. destruct (Nat.eq_dec c c); [|lia].
      cbn [max_gen frames hk set_mem].
      pose proof (chain I c d ltac:(lia) (le_n _)). pose proof (i_gens _ _ _ _ I d (le_n _)). lia.
    - intros. lia.
    - intros Hx. rewrite F1.
      assert (Hb : own || fix_ = true).
      { destruct Hx as [[x Hx]|Hx].
        - apply HK in Hx. destruct Hx as [-> _]. reflexivity.
        - destruct Hok as [->|[->|Hn]]; [apply orb_true_r|reflexivity|contradiction]. }
      rewrite Hb. unfold upd. destruct (Nat.eq_dec c c); [|lia]. cbn. auto.
    - rewrite G1. cbn. auto.
    - intros Hgd. rewrite G1. cbn [g_frame g_int g_save]. apply Hgf in Hgd. rewrite Hgd.
      split; [auto|]. split; [auto|]. intros x. rewrite HS, Hgd. cbn [andb].
      destruct und; [rewrite in_obj_of; intuition congruence|cbn; intuition discriminate].
    - intros Hgd. rewrite G1. cbn [g_frame g_int g_save].
      assert (Eg : gf = false) by (destruct gf; auto; exfalso; apply Hgd; apply Hgf; auto).
      rewrite Eg. auto.
    - rewrite G1. cbn [g_next]. reflexivity.
    - intros e u He Hu. assert (Hed : e <> d) by lia.
      unfold upd at 1. destruct (Nat.eq_dec e d); [lia|]. unfold upd in Hu.
      destruct (Nat.eq_dec e c) as [->|]; [|left; auto].
      destruct Hu as [<-|Hu]; [right; cbn; auto|left; auto].
    - intros e r He Hr. split; [lia|exact Hr].
  Qed.
End pop.

Theorem pop_inv fix_ h R P v : Inv h R P [] -> In v (R (top h)) ->
  merges (frames h (top h)) = 0 -> forall c, top h = S c ->
  (fix_ = true \/ forall h1 v1, realloc h v = Some (h1, v1) ->
     own_of h1 v1 (top h1) = true \/ g_frame (gc h1) <> top h1) ->
  exists h' v', pop fix_ h v = Some (h', v') /\ Inv h' (upd R c (v' :: R c)) P [] /\ top h' = c.
Proof.
  intros I Hv Hm c Ht Hok. rewrite (pop_eq fix_ h v c Ht Hm).
  assert (Hgv : gv h (top h) v) by (eapply root_gv; eauto).
  destruct (realloc_inv h R P [] (top h) v I (le_n _) Hgv) as [h1 [v1 [E [I1 [E1 [G1 C1]]]]]].
  rewrite E. exists (pop_tail fix_ h1 v1 (top h) c), v1. split; [reflexivity|].
  pose proof (e_top _ _ _ E1) as Ht1. rewrite <- Ht1 in *.
  assert (I1' : Inv h1 (radd R (top h1) [v1]) P []).
  { apply inv_radd; auto. intros u [<-|[]]. exact G1. }
  split.
  - eapply inv_roots; [apply (pop_tail_inv I1' v1)|].
    + rewrite in_radd. left. cbn; auto.
    + exact C1.
    + auto.
    + destruct Hok as [Hok|Hok]; [auto|]. destruct (Hok _ _ E); auto.
    + intros e u He Hu. eapply root_gv.
      * apply (pop_tail_inv I1' v1); auto.
        -- rewrite in_radd. left. cbn; auto.
        -- destruct Hok as [Hok|Hok]; [auto|]. destruct (Hok _ _ E); auto.
      * exact He.
      * unfold upd in *. destruct (Nat.eq_dec e c) as [->|].
        -- destruct Hu as [<-|Hu]; [left; auto|right]. rewrite in_radd. auto.
        -- rewrite in_radd. auto.
  - destruct (pop_tail_shape fix_ h1 v1 (top h1) c (eq_sym Ht) (inv_lists_ok _ _ _ _ I1)) as [T _]. exact T.
Qed.

(** ** CompactFrame *)

Definition compact_tail (h1 : heap) (vs1 : list value) (d : nat) : heap :=
  let f1 := frames h1 d in
  let h2 := set_frames h1 (upd (frames h1) d
              (mk_frame (merges f1) (min_gen f1) (max_gen f1) (S (max_gen f1)))) in
  let h3 := move_all (move_all h2 (Unm d) (Mrk d)) (Unm d) (All d) in
  let keep := flat_map (fun v => if owned h3 v (min_gen f1) then obj_of v else []) vs1 in
  let h4 := move_list_to h3 (Mrk d) keep in
  let h5 :=
    if Nat.eq_dec (g_frame (gc h4)) d then
      let save := flat_map (fun v => if undergoing h4 v then obj_of v else []) vs1 in
      set_gc (move_list_to h4 GMrk save) (set_interrupted (gc h4) (g_frame (gc h4)) save)
    else h4 in
  let h6 :=
    match g_next (gc h5) with
    | None => set_gc h5 (set_next (gc h5) (Some d))
    | Some _ => h5
    end in
  set_mem h6 (kill_stack (mem h6) d).

Lemma compact_eq h vs c : top h = S c -> merges (frames h (top h)) = 0 ->
  compact h false vs = match realloc_list h vs with
                 | None => None
                 | Some (h1, vs1) => Some (compact_tail h1 vs1 (top h), vs1)
                 end.
Proof. intros Ht Hm. unfold compact. rewrite Hm, Ht. reflexivity. Qed.

Lemma compact_tail_shape h1 vs d : lists_ok h1 ->
  let keep x := In (VObj x) vs /\ own_of h1 (VObj x) d = true in
  let save x := g_frame (gc h1) = d /\ In (VObj x) vs /\ undergoing h1 (VObj x) = true in
  let gf := if Nat.eq_dec (g_frame (gc h1)) d then true else false in
  let h' := compact_tail h1 vs d in
  top h' = top h1 /\ mem h' = kill_stack (mem h1) d /\ fresh h' = fresh h1 /\ freed h' = freed h1 /\
  lists_ok h' /\
  frames h' = upd (frames h1) d
     (mk_frame (merges (frames h1 d)) (min_gen (frames h1 d)) (max_gen (frames h1 d)) (S (max_gen (frames h1 d)))) /\
  (g_gen (gc h') = g_gen (gc h1) /\ g_min (gc h') = g_min (gc h1) /\ g_max (gc h') = g_max (gc h1)) /\
  g_frame (gc h') = g_frame (gc h1) /\
  g_next (gc h') = (match g_next (gc h1) with None => Some d | Some n => Some n end) /\
  g_int (gc h') = (if gf then true else g_int (gc h1)) /\
  (g_frame (gc h1) = d -> forall x, In x (g_save (gc h')) <-> save x) /\
  (g_frame (gc h1) <> d -> g_save (gc h') = g_save (gc h1)) /\
  (forall l x, inl h' l x <->
     (save x /\ l = GMrk) \/
     (~ save x /\
       ((keep x /\ l = Mrk d) \/
        (~ keep x /\
          ((l = Unm d /\ (inl h1 (Unm d) x \/ inl h1 (Mrk d) x \/ inl h1 (All d) x)) \/
           (l <> Unm d /\ l <> Mrk d /\ l <> All d /\ inl h1 l x)))))).
Proof.
  intros Hok. cbn zeta.
  set (gf := if Nat.eq_dec (g_frame (gc h1)) d then true else false).
  unfold compact_tail.
  set (h2 := set_frames h1 _).
  set (h3 := move_all (move_all h2 (Unm d) (Mrk d)) (Unm d) (All d)).
  assert (L3 : forall l x, inl h3 l x <->
    ((l = Unm d /\ (inl h1 (Unm d) x \/ inl h1 (Mrk d) x \/ inl h1 (All d) x)) \/
           (l <> Unm d /\ l <> Mrk d /\ l <> All d /\ inl h1 l x))).
  { intros l x. unfold h3. rewrite !inl_move_all by (auto; discriminate).
    change (inl h2) with (inl h1). intuition congruence. }
  assert (Ok3 : lists_ok h3).
  { unfold h3. apply lists_ok_move_all; [discriminate|]. apply lists_ok_move_all; [discriminate|exact Hok]. }
  assert (M3 : mem h3 = mem h1) by reflexivity.
  assert (F3 : frames h3 = upd (frames h1) d
     (mk_frame (merges (frames h1 d)) (min_gen (frames h1 d)) (max_gen (frames h1 d)) (S (max_gen (frames h1 d))))) by reflexivity.
  assert (G3 : gc h3 = gc h1) by reflexivity.
  assert (T3 : top h3 = top h1) by reflexivity.
  assert (Fr3 : fresh h3 = fresh h1) by reflexivity.
  assert (Fd3 : freed h3 = freed h1) by reflexivity.
  clearbody h3. clear h2.
  set (kp := flat_map _ vs).
  assert (Kp : forall x, In x kp <-> In (VObj x) vs /\ own_of h1 (VObj x) d = true).
  { intros x. unfold kp. rewrite inl_filter_obj. unfold own_of, owned, gen_of. rewrite M3. reflexivity. }
  clearbody kp.
  set (h4 := move_list_to h3 (Mrk d) kp).
  assert (L4 : forall l x, inl h4 l x <-> (In x kp /\ l = Mrk d) \/ (~ In x kp /\ inl h3 l x)).
  { intros l x. apply inl_move_list_to. }
  assert (Ok4 : lists_ok h4) by (apply lists_ok_move_list_to; auto).
  assert (M4 : mem h4 = mem h1) by (unfold h4; rewrite mlt_mem; auto).
  assert (F4 : frames h4 = frames h3) by (unfold h4; rewrite mlt_frames; auto).
  assert (G4 : gc h4 = gc h1) by (unfold h4; rewrite mlt_gc; auto).
  assert (T4 : top h4 = top h1) by (unfold h4; rewrite mlt_top; auto).
  assert (Fr4 : fresh h4 = fresh h1) by (unfold h4; rewrite mlt_fresh; auto).
  assert (Fd4 : freed h4 = freed h1) by (unfold h4; rewrite mlt_freed; auto).
  clearbody h4. rewrite G4.
  set (sv := flat_map _ vs).
  assert (Sv : forall x, In x sv <-> In (VObj x) vs /\ undergoing h1 (VObj x) = true).
  { intros x. unfold sv. rewrite inl_filter_obj. unfold undergoing, gen_of. rewrite M4, G4. reflexivity. }
  clearbody sv.
  set (h5 := if Nat.eq_dec (g_frame (gc h1)) d then _ else h4).
  assert (A5 : (forall l x, inl h5 l x <->
        ((g_frame (gc h1) = d /\ In (VObj x) vs /\ undergoing h1 (VObj x) = true) /\ l = GMrk) \/
        (~ (g_frame (gc h1) = d /\ In (VObj x) vs /\ undergoing h1 (VObj x) = true) /\ inl h4 l x)) /\
     lists_ok h5 /\ mem h5 = mem h1 /\
     top h5 = top h1 /\ fresh h5 = fresh h1 /\ freed h5 = freed h1 /\ frames h5 = frames h3 /\
     gc h5 = mk_gc (g_gen (gc h1)) (g_min (gc h1)) (g_max (gc h1))
     (g_frame (gc h1)) (g_next (gc h1)) (if gf then true else g_int (gc h1))
     (if gf then sv else g_save (gc h1))).
  { unfold h5, gf. destruct (Nat.eq_dec (g_frame (gc h1)) d) as [Hg|Hg].
    - cbn [set_gc mem gc top fresh freed frames]. rewrite mlt_mem, mlt_top, mlt_fresh, mlt_frames, mlt_freed.
      split; [|split; [apply lists_ok_move_list_to; auto|repeat split; auto]].
      intros l x. change (inl (set_gc ?a ?b) l x) with (inl a l x).
      rewrite inl_move_list_to, Sv. tauto.
    - split; [|split; [auto|repeat split; auto]].
      + intros l x. tauto.
      + rewrite G4. destruct (gc h1); reflexivity. }
  destruct A5 as [L5 [Ok5 [M5 [T5 [Fr5 [Fd5 [F5 G5]]]]]]]. clearbody h5.
  set (h6 := match g_next (gc h5) with None => _ | Some n => _ end).
  assert (A7 : lists h6 = lists h5 /\ mem h6 = mem h1 /\
     top h6 = top h1 /\ fresh h6 = fresh h1 /\ freed h6 = freed h1 /\ frames h6 = frames h3 /\
     gc h6 = mk_gc (g_gen (gc h1)) (g_min (gc h1)) (g_max (gc h1))
     (g_frame (gc h1))
     (match g_next (gc h1) with None => Some d | Some n => Some n end)
     (if gf then true else g_int (gc h1))
     (if gf then sv else g_save (gc h1))).
  { unfold h6. rewrite G5. cbn [g_next]. destruct (g_next (gc h1)) as [n|];
      cbn [set_gc lists mem top fresh freed frames gc]; repeat split; auto. }
  destruct A7 as [L7 [M7 [T7 [Fr7 [Fd7 [F7 G7]]]]]]. clearbody h6.
  assert (Lx : forall m l x, inl (set_mem h6 m) l x <-> inl h5 l x).
  { intros m l x. unfold inl. cbn [set_mem lists]. rewrite L7. reflexivity. }
  cbn [set_mem mem top fresh freed frames gc]. rewrite M7, F7, F3, G7. cbn [g_gen g_min g_max g_frame g_next g_int g_save].
  split; [auto|]. split; [auto|]. split; [auto|]. split; [auto|].
  split.
  { unfold lists_ok. cbn [set_mem lists]. split.
    - intros l l' x. rewrite !Lx. apply Ok5.
    - rewrite L7. apply Ok5. }
  split; [auto|]. split; [auto|]. split; [auto|]. split; [auto|]. split; [auto|].
  split.
  { intros Hg x. unfold gf. destruct (Nat.eq_dec (g_frame (gc h1)) d); [|contradiction]. rewrite Sv. tauto. }
  split.
  { intros Hg. unfold gf. destruct (Nat.eq_dec (g_frame (gc h1)) d); [contradiction|auto]. }
  intros l x. rewrite Lx, L5, L4, L3, Kp. reflexivity.
Qed.

Section compact.
  Context {h : heap} {R : nat -> list value} {P : nat -> list nat}.
  Context (I : Inv h R P []) (vs : list value)
          (Hvs : forall v, In v vs -> In v (R (top h)) /\ gcval (mem h) v).

  Lemma compact_tail_inv : Inv (compact_tail h vs (top h)) (upd R (top h) vs) (upd P (top h) []) [].
  Proof.
    destruct (compact_tail_shape h vs (top h) (inv_lists_ok _ _ _ _ I))
      as [T1 [M1 [Fr1 [Fd1 [Ok1 [F1 [G1 [G2 [G3 [G4 [G5 [G6 L1]]]]]]]]]]]].
    set (h' := compact_tail h vs (top h)) in *. clearbody h'.
    set (hk := set_mem h (kill_stack (mem h) (top h))).
    assert (Ik : Inv hk (upd R (top h) vs) P []) by (apply (kill_inv I); exact Hvs).
    assert (Hvk : forall v, In v vs -> In v (upd R (top h) vs (top hk))).
    { intros v Hv. unfold upd. change (top hk) with (top h). destruct (Nat.eq_dec (top h) (top h)); [auto|congruence]. }
    assert (Hgk : forall v, In v vs -> gcval (mem hk) v).
    { intros v Hv. destruct (Hvs _ Hv) as [_ Hg]. destruct v as [| |x|]; try exact Logic.I; [|contradiction].
      apply (ki_gcobj (h := h)). exact Hg. }
    assert (HK : forall x, (In (VObj x) vs /\ fr hk x (top h)) <-> (In (VObj x) vs /\ own_of h (VObj x) (top h) = true)).
    { intros x. split; intros [Hx Hf]; split; auto.
      - unfold own_of. rewrite <- (owned_kill h (top h)). fold hk.
        apply (owned_fr _ _ _ _ _ Ik (Hvk _ Hx) (Hgk _ Hx)). eauto.
      - unfold own_of in Hf. rewrite <- (owned_kill h (top h)) in Hf. fold hk in Hf.
        apply (owned_fr _ _ _ _ _ Ik (Hvk _ Hx) (Hgk _ Hx)) in Hf. destruct Hf as [y [[= <-] Hy]]. exact Hy. }
    assert (HS : forall x, (g_frame (gc hk) = top h /\ In (VObj x) vs /\ ingc hk x) <->
                           (g_frame (gc h) = top h /\ In (VObj x) vs /\ undergoing h (VObj x) = true)).
    { intros x. split; intros [H1 [Hx Hf]]; (split; [exact H1|]); split; auto.
      - rewrite <- (undergoing_kill h (top h)). fold hk.
        apply (undergoing_ingc _ _ _ _ _ Ik (Hvk _ Hx) (Hgk _ Hx)). eauto.
      - rewrite <- (undergoing_kill h (top h)) in Hf. fold hk in Hf.
        apply (undergoing_ingc _ _ _ _ _ Ik (Hvk _ Hx) (Hgk _ Hx)) in Hf. destruct Hf as [y [[= <-] Hy]]. exact Hy. }
    set (d := top h) in *.
    set (keep := fun x => In (VObj x) vs /\ own_of h (VObj x) d = true) in *.
    set (save := fun x => g_frame (gc h) = d /\ In (VObj x) vs /\ undergoing h (VObj x) = true) in *.
    assert (HSK : forall x, save x -> keep x).
    { intros x Hx. apply HK. apply HS in Hx. destruct Hx as [H1 [H2 H3]]. split; auto.
      right; right; right; left. auto. }
    assert (Hinl : forall l x, inl hk l x <-> inl h l x) by reflexivity.
    assert (DK : forall x, keep x \/ ~ keep x).
    { intros x. unfold keep. destruct (in_dec value_eq_dec (VObj x) vs); [|tauto].
      destruct (own_of h (VObj x) d); [auto|]. right. intuition discriminate. }
    assert (DS : forall x, save x \/ ~ save x).
    { intros x. unfold save. destruct (in_dec value_eq_dec (VObj x) vs); [|tauto].
      destruct (Nat.eq_dec (g_frame (gc h)) d); [|tauto].
      destruct (undergoing h (VObj x)); [auto|]. right. intuition discriminate. }
    apply (sink_inv (h := hk) (h' := h') Ik d d eq_refl (or_introl eq_refl)) with (vs := vs).
    - intros x. apply ki_no.
    - intros x Hx. apply Hvk. auto.
    - intros Hx. apply Hgk in Hx. exact Hx.
    - exact T1.
    - exact M1.
    - exact Fr1.
    - exact Ok1.
    - intros e x. cbn beta. rewrite HK, L1, !Hinl. fold (keep x) (save x).
      assert (Hdn : forall y, Unm e <> Mrk y /\ Unm e <> All y /\ Unm e <> GMrk) by (intros y; repeat split; discriminate).
      destruct (Hdn d) as [D4 [D5 D6]].
      assert (Hab : d < e -> ~ inl h (Unm e) x).
      { intros He. unfold inl.
        destruct (i_above _ _ _ _ I e) as [H1 _]; [fold d; lia|]. rewrite H1. auto. }
      assert (Hed : Unm e = Unm d <-> e = d) by (split; [intros [= E]; auto|intros ->; auto]).
      rewrite Hed.
      assert (Hnk : inl h (Unm e) x -> e <> d -> ~ keep x).
      { intros H1 H2 H3. apply HK in H3. destruct H3 as [_ H3]. apply H2.
        eapply (fr_unique Ik); eauto. left. auto. }
      specialize (HSK x).
      destruct (lt_eq_lt_dec e d) as [[Hl|He]|Hl].
      + assert (e <> d) by lia. tauto.
      + assert (~ e < d) by lia. tauto.
      + assert (~ e < d) by lia. assert (e <> d) by lia. specialize (Hab Hl). tauto.
    - intros e x. cbn beta. rewrite HK, HS, L1, !Hinl. fold (keep x) (save x).
      assert (Hdn : forall y, Mrk e <> Unm y /\ Mrk e <> All y /\ Mrk e <> GMrk) by (intros y; repeat split; discriminate).
      destruct (Hdn d) as [D4 [D5 D6]].
      assert (Hab : d < e -> ~ inl h (Mrk e) x).
      { intros He. unfold inl.
        destruct (i_above _ _ _ _ I e) as [_ [H1 _]]; [fold d; lia|]. rewrite H1. auto. }
      assert (Hed : Mrk e = Mrk d <-> e = d) by (split; [intros [= E]; auto|intros ->; auto]).
      rewrite Hed.
      assert (Hnk : inl h (Mrk e) x -> e <> d -> ~ keep x).
      { intros H1 H2 H3. apply HK in H3. destruct H3 as [_ H3]. apply H2.
        eapply (fr_unique Ik); eauto. right; left. auto. }
      specialize (HSK x).
      destruct (lt_eq_lt_dec e d) as [[Hl|He]|Hl].
      + assert (e <> d) by lia. assert (e <= d) by lia. tauto.
      + assert (e <= d) by lia. tauto.
      + assert (~ e <= d) by lia. assert (e <> d) by lia. specialize (Hab Hl). tauto.
    - intros e x. rewrite L1, !Hinl. fold (keep x) (save x).
      assert (Hdn : forall y, All e <> Unm y /\ All e <> Mrk y /\ All e <> GMrk) by (intros y; repeat split; discriminate).
      destruct (Hdn d) as [D4 [D5 D6]].
      assert (Hab : d < e -> ~ inl h (All e) x).
      { intros He. unfold inl.
        destruct (i_above _ _ _ _ I e) as [_ [_ H1]]; [fold d; lia|]. rewrite H1. auto. }
      assert (Hed : All e = All d <-> e = d) by (split; [intros [= E]; auto|intros ->; auto]).
      rewrite Hed.
      assert (Hnk : inl h (All e) x -> e <> d -> ~ keep x).
      { intros H1 H2 H3. apply HK in H3. destruct H3 as [_ H3]. apply H2.
        eapply (fr_unique Ik); eauto. right; right; left. auto. }
      specialize (HSK x).
      destruct (le_lt_dec e d) as [Hl|Hl].
      + tauto.
      + assert (~ e <= d) by lia. specialize (Hab Hl). tauto.
    - intros x. cbn beta; rewrite HS, L1, !Hinl. fold (keep x) (save x).
      assert (D : GMrk <> Mrk d /\ GMrk <> Unm d /\ GMrk <> Mrk d /\ GMrk <> All d) by (repeat split; discriminate).
      assert (Hnk : inl h GMrk x -> keep x -> save x).
      { intros H1 H3. apply HS. apply HK in H3. destruct H3 as [H2 H3].
        assert (H4 : fr hk x (g_frame (gc hk))) by (right; right; right; left; auto).
        split; [eapply (fr_unique Ik); eauto|]. split; auto. left; auto. }
      specialize (DS x). specialize (HSK x). tauto.
    - intros x. cbn beta; rewrite HS, L1, !Hinl. fold (keep x) (save x).
      assert (D : GUnm <> Mrk d /\ GUnm <> Unm d /\ GUnm <> Mrk d /\ GUnm <> All d /\ GUnm <> GMrk) by (repeat split; discriminate).
      assert (Hnk : inl h GUnm x -> keep x -> save x).
      { intros H1 H3. apply HS. apply HK in H3. destruct H3 as [H2 H3].
        assert (H4 : fr hk x (g_frame (gc hk))) by (right; right; right; left; auto).
        split; [eapply (fr_unique Ik); eauto|]. split; auto. right; auto. }
      specialize (DS x). specialize (HSK x). tauto.
    - intros x. rewrite L1, !Hinl. fold (keep x) (save x).
      assert (D : GFree <> Mrk d /\ GFree <> Unm d /\ GFree <> Mrk d /\ GFree <> All d /\ GFree <> GMrk) by (repeat split; discriminate).
      assert (Hnk : inl h GFree x -> ~ keep x).
      { intros H1 [H2 _].
        destruct (i_root _ _ _ _ Ik (top hk) x (le_n _) (Hvk _ H2)) as [[_ Hx] _]. apply Hx. exact H1. }
      specialize (HSK x). tauto.
    - intros e He. rewrite F1. unfold upd. destruct (Nat.eq_dec e d); [lia|auto].
    - rewrite F1. unfold upd. destruct (Nat.eq_dec d d); [auto|lia].
    - right. split; [lia|]. rewrite F1. unfold upd. destruct (Nat.eq_dec d d); [auto|lia].
    - rewrite F1. unfold upd. destruct (Nat.eq_dec d d); [|lia]. cbn. lia.
    - intros _. rewrite F1. unfold upd. destruct (Nat.eq_dec d d); [|lia]. cbn. lia.
    - intros _. rewrite F1. unfold upd. destruct (Nat.eq_dec d d); [|lia]. cbn. lia.
    - exact G1.
    - intros Hgd. split; [rewrite G2; exact Hgd|]. split.
      + rewrite G4. change (gc hk) with (gc h) in Hgd. destruct (Nat.eq_dec (g_frame (gc h)) d); [auto|contradiction].
      + intros x. cbn beta. rewrite HS. apply G5. exact Hgd.
    - intros Hgd. change (gc hk) with (gc h) in Hgd. split; [exact G2|]. split.
      + rewrite G4. destruct (Nat.eq_dec (g_frame (gc h)) d); [contradiction|auto].
      + apply G6. auto.
    - rewrite G3. change (gc hk) with (gc h). destruct (g_next (gc h)) as [n|]; auto. destruct (Nat.eq_dec n d); congruence.
    - intros e u He Hu. unfold upd in Hu. destruct (Nat.eq_dec e d) as [->|]; [right; auto|].
      left. split; auto. unfold upd. destruct (Nat.eq_dec e d); [contradiction|auto].
    - intros e r He Hr. unfold upd in Hr. destruct (Nat.eq_dec e d) as [->|]; [destruct Hr|auto].
  Qed.
End compact.

Theorem compact_inv h R P vs : Inv h R P [] -> (forall v, In v vs -> In v (R (top h))) ->
  merges (frames h (top h)) = 0 -> forall c, top h = S c ->
  exists h' vs', compact h false vs = Some (h', vs') /\
    Inv h' (upd R (top h) vs') (upd P (top h) []) [] /\ top h' = top h.
Proof.
  intros I Hv Hm c Ht. rewrite (compact_eq h vs c Ht Hm).
  destruct (realloc_list_inv vs h R P [] (top h) I (le_n _)) as [h1 [vs1 [E [I1 [E1 C1]]]]].
  { intros v Hi. eapply root_gv; eauto. }
  rewrite E. exists (compact_tail h1 vs1 (top h)), vs1. split; [reflexivity|].
  pose proof (e_top _ _ _ E1) as Ht1. rewrite <- Ht1 in *.
  split.
  - eapply inv_roots; [apply (compact_tail_inv I1 vs1)|].
    + intros v Hi. split; auto. rewrite in_radd. auto.
    + intros e u He Hu. eapply root_gv.
      * apply (compact_tail_inv I1 vs1). intros v Hi. split; auto. rewrite in_radd. auto.
      * exact He.
      * unfold upd in *. destruct (Nat.eq_dec e (top h1)) as [->|]; [auto|]. rewrite in_radd. auto.
  - destruct (compact_tail_shape h1 vs1 (top h1) (inv_lists_ok _ _ _ _ I1)) as [T _]. exact T.
Qed.

(** ** The empty heap *)

Lemma new_heap_inv R P : R 0 = [] -> P 0 = [] -> Inv new_heap R P [].
Proof.
  intros HR HP.
  assert (Hin : forall l x, ~ inl new_heap l x) by (intros l x []).
  assert (HU : forall d x, ~ Uf new_heap d x).
  { intros d x [[]|[H _]]. discriminate. }
  assert (HM : forall d x, ~ Mf new_heap d x).
  { intros d x [[]|[H _]]. discriminate. }
  assert (Hr : forall d x, ~ rchf new_heap d x).
  { intros d x H. apply rch_in in H. destruct H; [eapply HM|eapply HU]; eauto. }
  assert (Hp : forall x, ~ gpr new_heap x).
  { intros x H. apply rch_in in H. destruct H as [[]|[]]. }
  assert (Hn : forall x, ~ nf new_heap x) by (intros x [H _]; apply H; reflexivity).
  constructor; [constructor|..]; cbn [top new_heap frames gc];
    try (intros; exfalso; first [eapply Hin; eassumption | eapply Hp; eassumption
      | eapply Hr; eassumption | eapply Hn; eassumption ]).
  - intros. constructor.
  - auto.
  - intros x [g [ob [H _]]]. discriminate.
  - discriminate.
  - intros x ob g d H. discriminate.
  - intros o ob g d H. discriminate.
  - intros d x Hd Hx. assert (d = 0) by lia. subst d. rewrite HR in Hx. destruct Hx.
  - intros d Hd. assert (d = 0) by lia. subst d. rewrite HR. auto.
  - intros d r Hd Hx. assert (d = 0) by lia. subst d. rewrite HP in Hx. destruct Hx.
  - intros d _. cbn. lia.
  - intros d Hd. lia.
  - intros d d' x _ _ _ Hu. exfalso. eapply HU; eauto.
  - intros d x _ _ [].
  - auto.
  - cbn. lia.
  - cbn. lia.
  - cbn. lia.
  - intros _. auto.
  - discriminate.
  - discriminate.
  - intros d x _ [[]|[]].
Unshelve. all: first [exact 0 | exact GFree].
Qed.
