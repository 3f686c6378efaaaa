(** * Threads of the profiler: every history (C23, C24). *)
From Coq Require Import ZArith List Bool Lia Sorting.Sorted Permutation.
From Verif Require Import ProfileModel ProfileSpec ProfileStack ProfileProps.
Import ListNotations.
Local Open Scope list_scope.

Definition in_st (st : stack) (e : nat * nat) : Prop := exists f, In f st /\ In e (snd f).

(** The calls l and the pairs on the sample stack (newest first) are those of st. *)
Inductive aligned : list call -> list (nat * nat) -> stack -> Prop :=
| al_nil : aligned [] [] []
| al_cons : forall cs rest st seg b es, aligned cs rest st ->
    (forall e, In e (seg ++ rest) <-> In e es \/ in_st st e) ->
    aligned ((b, length seg) :: cs) (seg ++ rest) ((b, es) :: st).

Lemma in_st_cons : forall b es st e, in_st ((b, es) :: st) e <-> In e es \/ in_st st e.
Proof.
  intros. unfold in_st. simpl. split.
  - intros (f & [<-|I] & J); eauto.
  - intros [I|(f & I & J)]; eauto.
Qed.

Lemma aligned_in : forall l ps st, aligned l ps st -> forall e, In e ps <-> in_st st e.
Proof.
  destruct 1; intros.
  - split; [intros []|]. intros (f & [] & _).
  - rewrite in_st_cons. apply H0.
Qed.

Lemma aligned_length : forall l ps st, aligned l ps st -> length l = length st.
Proof. induction 1; simpl; auto. Qed.

Lemma eqp_true : forall e f, eqp e f = true <-> e = f.
Proof.
  intros [a b] [c d]. unfold eqp; simpl. rewrite andb_true_iff, !Nat.eqb_eq. split; [intros []; congruence|intro H; inversion H; auto].
Qed.

Lemma calling_iff : forall st a b, calling st a b = true <-> in_st st (a, b).
Proof.
  intros. unfold calling, in_st. rewrite existsb_exists. split; intros (f & I & J); exists f; split; auto.
  - apply existsb_exists in J. destruct J as (e & K & L). apply eqp_true in L. subst; auto.
  - apply existsb_exists. exists (a, b). split; auto. apply eqp_true; auto.
Qed.

Lemma called_iff : forall st b, called st b = true <-> exists a, in_st st (a, b).
Proof.
  intros. unfold called, in_st. rewrite existsb_exists. split.
  - intros (f & I & J). apply existsb_exists in J. destruct J as ([a b'] & K & L). apply Nat.eqb_eq in L.
    simpl in L. subst. eauto.
  - intros (a & f & I & J). exists f. split; auto. apply existsb_exists. exists (a, b). simpl. rewrite Nat.eqb_refl. auto.
Qed.

Definition pair_of (p : profile) (s : nat * nat) : nat * nat := (fst s, idof p (snd s)).
Definition valid (p : profile) (s : nat * nat) : Prop := In (snd s) (callees p (fst s)).

(** sample_set mirrors the sample stack. *)
Definition mirrored (ss : list (nat * nat)) (l : list ev) : Prop :=
  (forall a v, nth_error l a = Some v ->
     ev_xs v = map snd (filter (fun s => Nat.eqb (fst s) a) ss) /\ length (ev_xs v) <= ev_capacity v) /\
  (forall s, In s ss -> fst s < length l).

Record inv (p : profile) (th : thread) (l : list call) (st : stack) : Prop := INV {
  i_wf : wf p;
  i_rep : rep th l;
  i_aligned : aligned l (rev (map (pair_of p) (samples th))) st;
  i_nodup : NoDup (map (pair_of p) (samples th));
  i_valid : Forall (valid p) (samples th);
  i_mirror : mirrored (samples th) (sset th);
  i_cap : length (samples th) <= sample_capacity th /\ 0 < sample_capacity th;
  i_sset : length (sset th) <= size p;
  i_blocks : Forall (fun c => fst c < size p) l }.

Lemma rep_cong : forall th th' l, rep th l -> chunks th' = chunks th -> cur th' = cur th -> lost th' = lost th -> rep th' l.
Proof.
  intros th th' l (pre & c & post & E1 & E2 & F) A B C. exists pre, c, post. rewrite A, B, C. auto.
Qed.

Lemma pair_of_shape : forall p q ss, (forall x, idof q x = idof p x) -> map (pair_of q) ss = map (pair_of p) ss.
Proof. intros. apply map_ext. intros [a x]. unfold pair_of; simpl. rewrite H. auto. Qed.

Lemma inv_shape : forall p q th l st, inv p th l st -> wf q -> same_shape p q -> inv q th l st.
Proof.
  intros p q th l st [] W []. constructor; auto.
  - rewrite (pair_of_shape _ _ _ ss_id). auto.
  - rewrite (pair_of_shape _ _ _ ss_id). auto.
  - eapply Forall_impl; [|exact i_valid0]. intros s. unfold valid. rewrite ss_callees. auto.
  - lia.
  - eapply Forall_impl; [|exact i_blocks0]. simpl. intros. lia.
Qed.

(** ** A sample. *)
Lemma charge_call_ok : forall p a x t, wf p -> In x (callees p a) ->
  exists q d, charge_call p x t = Some q /\ wf q /\ same_shape p q /\ same_numbers p q /\ nth_error (cds p) x = Some d /\
    cd_id d = idof p x /\
    forall a' b', call_of q a' b' = if eqp (a', b') (a, idof p x) then Some (CD (cd_id d) (cd_count d) (w64 (cd_time d + t))) else call_of p a' b'.
Proof.
  intros p a x t W I. destruct (wf_in _ W _ _ I) as (d & D & L).
  unfold charge_call. rewrite D. cbn [bind]. eexists _, d. split; [reflexivity|].
  fold (upd_call p x (CD (cd_id d) (cd_count d) (w64 (cd_time d + t)))).
  destruct (upd_call_ok p a x d (CD (cd_id d) (cd_count d) (w64 (cd_time d + t))) W I D eq_refl) as (W' & N & C).
  { split; simpl. apply (nth_call_ok _ _ _ W D). apply w64_range. }
  assert (ID : cd_id d = idof p x) by (unfold idof; rewrite D; auto).
  rewrite ID in *. repeat (split; [solve [auto | eapply upd_call_shape; eauto]|]). exact C.
Qed.

Lemma inc_call_ok : forall p a x, wf p -> In x (callees p a) ->
  exists q d, inc_call p x = Some q /\ wf q /\ same_shape p q /\ same_numbers p q /\ nth_error (cds p) x = Some d /\
    cd_id d = idof p x /\
    forall a' b', call_of q a' b' = if eqp (a', b') (a, idof p x) then Some (CD (cd_id d) (w64 (cd_count d + 1)) (cd_time d)) else call_of p a' b'.
Proof.
  intros p a x W I. destruct (wf_in _ W _ _ I) as (d & D & L).
  unfold inc_call. rewrite D. cbn [bind]. eexists _, d. split; [reflexivity|].
  fold (upd_call p x (CD (cd_id d) (w64 (cd_count d + 1)) (cd_time d))).
  destruct (upd_call_ok p a x d (CD (cd_id d) (w64 (cd_count d + 1)) (cd_time d)) W I D eq_refl) as (W' & N & C).
  { split; simpl. apply w64_range. apply (nth_call_ok _ _ _ W D). }
  assert (ID : cd_id d = idof p x) by (unfold idof; rewrite D; auto).
  rewrite ID in *. repeat (split; [solve [auto | eapply upd_call_shape; eauto]|]). exact C.
Qed.

Lemma call_of_valid : forall p a x d, wf p -> In x (callees p a) -> nth_error (cds p) x = Some d ->
  call_of p a (idof p x) = Some d.
Proof. intros. apply call_of_iff; auto. exists x. unfold idof. rewrite H1. auto. Qed.

Lemma range0 : forall p a b, wf p -> in_range (call_time_of p a b) /\ in_range (call_count_of p a b).
Proof.
  intros. unfold call_time_of, call_count_of. destruct (call_of p a b) eqn:C.
  - apply call_of_iff in C; auto. destruct C as (x & _ & N & _). destruct (nth_call_ok _ _ _ H N). auto.
  - split; unfold in_range; lia.
Qed.

Lemma range1 : forall p b, wf p -> in_range (self_of p b) /\ in_range (count_of p b) /\ in_range (time_of p b).
Proof.
  intros. unfold self_of, count_of, time_of. destruct (nth_error (blocks p) b) eqn:N.
  - destruct (nth_block_ok _ _ _ H N) as (A & B & C). auto.
  - split; [|split]; unfold in_range; lia.
Qed.

Lemma charge_samples_ok : forall ss seen p t, wf p -> Forall (valid p) ss -> NoDup (map (pair_of p) ss) ->
  length seen = size p ->
  exists q, charge_samples ss seen p t = Some q /\ wf q /\ same_shape p q /\
    (forall b, self_of q b = self_of p b) /\ (forall b, count_of q b = count_of p b) /\
    (forall b, time_of q b = w64 (time_of p b + if_ (negb (nth b seen true) && existsb (fun e => Nat.eqb (snd e) b) (map (pair_of p) ss)) t)) /\
    (forall a b, call_count_of q a b = call_count_of p a b) /\
    (forall a b, call_time_of q a b = w64 (call_time_of p a b + if_ (existsb (eqp (a, b)) (map (pair_of p) ss)) t)) /\
    (forall a b, call_of q a b = None <-> call_of p a b = None).
Proof.
  induction ss as [|[a x] ss IH]; intros seen p t W V ND LS.
  - exists p. split; [reflexivity|]. split; [auto|]. split; [apply same_shape_refl|].
    split; [auto|]. split; [auto|]. simpl. split; [|split; [auto|split; [|intros; reflexivity]]].
    + intro b. rewrite andb_false_r. simpl. rewrite Z.add_0_r, w64_id; auto. apply range1; auto.
    + intros. simpl. rewrite Z.add_0_r, w64_id; auto. apply range0; auto.
  - inversion V as [|? ? V1 V2]; subst. unfold valid in V1; simpl in V1.
    cbn [map] in ND. inversion ND as [|? ? ND1 ND2]; subst.
    destruct (wf_in _ W _ _ V1) as (d & D & LD).
    assert (ID : cd_id d = idof p x) by (unfold idof; rewrite D; auto).
    cbn [charge_samples]. rewrite D. cbn [bind]. cbv zeta.
    destruct (nth_lt _ seen (cd_id d)) as (s & SN); [lia|]. rewrite SN. cbn [bind].
    (* the block is charged unless seen *)
    assert (STEP : exists p1 seen1,
      (if s then Some (p, seen) else bind (charge_block p (cd_id d) t) (fun p => Some (p, upd seen (cd_id d) true))) = Some (p1, seen1) /\
      wf p1 /\ same_shape p p1 /\ (forall b, self_of p1 b = self_of p b) /\ (forall b, count_of p1 b = count_of p b) /\
      (forall b, time_of p1 b = w64 (time_of p b + if_ (Nat.eqb (cd_id d) b && negb s) t)) /\
      (forall a b, call_of p1 a b = call_of p a b) /\ cds p1 = cds p /\ length seen1 = length seen /\
      (forall b, b < length seen -> nth b seen1 true = (nth b seen true || Nat.eqb (cd_id d) b))).
    { assert (NS : nth (cd_id d) seen true = s) by (apply nth_error_nth; auto).
      destruct s.
      - exists p, seen. split; [reflexivity|]. split; [auto|]. split; [apply same_shape_refl|].
        split; [auto|]. split; [auto|]. split.
        { intro b. rewrite andb_false_r. simpl. rewrite Z.add_0_r, w64_id; auto. apply range1; auto. }
        split; [auto|]. split; [auto|]. split; [auto|].
        intros b _. destruct (Nat.eqb_spec (cd_id d) b); [|rewrite orb_false_r; auto]. subst. rewrite NS. auto.
      - destruct (charge_block_ok p (cd_id d) t W LD) as (p1 & E & W1 & S1 & T1 & SE1 & C1 & CA1 & CD1).
        rewrite E. cbn [bind]. exists p1, (upd seen (cd_id d) true).
        split; [reflexivity|]. split; [auto|]. split; [auto|]. split; [auto|]. split; [auto|]. split.
        { intro b. rewrite andb_true_r. auto. }
        split; [auto|]. split; [auto|]. split; [apply upd_length|].
        intros b B. destruct (Nat.eqb_spec (cd_id d) b).
        + subst. rewrite orb_true_r. apply nth_error_nth. apply nth_upd_same. lia.
        + rewrite orb_false_r. destruct (nth_lt _ _ _ B) as (v & N).
          rewrite (nth_error_nth _ _ true N). apply nth_error_nth. rewrite nth_upd_other; auto. }
    destruct STEP as (p1 & seen1 & E1 & W1 & S1 & SE1 & C1 & T1 & CA1 & CD1 & L1 & N1).
    rewrite E1. cbn [bind].
    assert (V1' : In x (callees p1 a)) by (rewrite (ss_callees _ _ S1); auto).
    destruct (charge_call_ok p1 a x t W1 V1') as (p2 & d2 & E2 & W2 & S2 & (SE2 & C2 & T2) & D2 & ID2 & CA2).
    rewrite E2. cbn [bind].
    assert (S12 : same_shape p p2) by (eapply same_shape_trans; eauto).
    assert (PE : map (pair_of p2) ss = map (pair_of p) ss) by (apply pair_of_shape; apply S12).
    destruct (IH seen1 p2 t W2) as (q & E & Wq & Sq & SEq & Cq & Tq & CCq & CTq & Pq).
    { eapply Forall_impl; [|exact V2]. intros z. unfold valid. rewrite (ss_callees _ _ S12). auto. }
    { rewrite PE. auto. }
    { rewrite L1, LS. symmetry. apply S12. }
    exists q. split; [exact E|]. split; [auto|]. split; [eapply same_shape_trans; eauto|].
    split. { intro b. rewrite SEq, SE2. auto. }
    split. { intro b. rewrite Cq, C2. auto. }
    assert (DD : d2 = d) by (rewrite CD1 in D2; congruence). subst d2.
    assert (IDX : idof p1 x = idof p x) by apply S1.
    assert (CO : forall a' b', call_of p2 a' b' = if eqp (a', b') (a, idof p x) then Some (CD (cd_id d) (cd_count d) (w64 (cd_time d + t))) else call_of p a' b').
    { intros. rewrite CA2, CA1, IDX. auto. }
    split.
    { intro b. rewrite Tq, T2, T1, PE, w64_add. f_equal. cbn [map existsb]. unfold pair_of at 2. cbn [fst snd]. rewrite <- ID.
      destruct (Nat.lt_ge_cases b (size p)) as [LB|GB].
      - rewrite N1 by lia. destruct (Nat.eqb_spec (cd_id d) b) as [Q|Q]; cbn [orb andb negb].
        + subst b. rewrite orb_true_r. cbn [negb andb]. rewrite (nth_error_nth _ _ true SN). rewrite andb_true_r. simpl. destruct s; simpl; lia.
        + rewrite orb_false_r. simpl. lia.
      - assert (Q : cd_id d <> b) by lia. apply Nat.eqb_neq in Q. rewrite Q. cbn [orb andb].
        rewrite !nth_overflow by lia. simpl. lia. }
    split.
    { intros a' b'. rewrite CCq. unfold call_count_of. rewrite CO. destruct (eqp (a', b') (a, idof p x)) eqn:Q; auto.
      apply eqp_true in Q. inversion Q; subst. rewrite (call_of_valid p a x d); auto. }
    split.
    { intros a' b'. rewrite CTq, PE. cbn [map existsb]. change (pair_of p (a, x)) with (a, idof p x).
      unfold call_time_of. rewrite CO. destruct (eqp (a', b') (a, idof p x)) eqn:Q; cbn [orb]; auto.
      apply eqp_true in Q. inversion Q; subst. rewrite (call_of_valid p a x d); auto. cbn [cd_time].
      assert (NE : existsb (eqp (a, idof p x)) (map (pair_of p) ss) = false).
      { destruct (existsb _ _) eqn:X; auto. apply existsb_exists in X. destruct X as (e & I & X). apply eqp_true in X. subst e.
        exfalso. apply ND1. exact I. }
      rewrite NE. simpl. rewrite w64_add, Z.add_0_r. auto. }
    { intros a' b'. rewrite Pq, CO. destruct (eqp (a', b') (a, idof p x)) eqn:Q; [|reflexivity].
      apply eqp_true in Q. inversion Q; subst. rewrite (call_of_valid p a x d); auto. split; discriminate. }
Qed.

(** ** What one step, or a history, should add to a profile. *)
Definition root_again (b : nat) (st : stack) (o : op) : Z :=
  match o with Sample t => if_ (called st 0 && Nat.eqb b 0) t | _ => 0%Z end.

Record recorded (p q : profile) (v : (stack -> op -> Z) -> Z) : Prop := RECORDED {
  rec_self : forall b, self_of q b = w64 (self_of p b + v (self_time b));
  rec_count : forall b, count_of q b = w64 (count_of p b + v (block_count b));
  rec_time : forall b, time_of q b = w64 (time_of p b + (v (block_time b) + v (root_again b)));
  rec_ccount : forall a b, call_count_of q a b = w64 (call_count_of p a b + v (call_count a b));
  rec_ctime : forall a b, call_time_of q a b = w64 (call_time_of p a b + v (call_time a b));
  rec_present : forall a b, call_of q a b = None <-> call_of p a b = None /\ v (call_count a b) = 0%Z }.

Lemma keep : forall z v, in_range z -> v = 0%Z -> z = w64 (z + v).
Proof. intros. subst. rewrite Z.add_0_r, w64_id; auto. Qed.

Lemma in_existsb : forall (f : nat * nat -> bool) l m, (forall e, In e l <-> In e m) -> existsb f l = existsb f m.
Proof.
  intros. destruct (existsb f l) eqn:A, (existsb f m) eqn:B; auto.
  - apply existsb_exists in A. destruct A as (x & I & F). apply H in I.
    assert (existsb f m = true) by (apply existsb_exists; eauto). congruence.
  - apply existsb_exists in B. destruct B as (x & I & F). apply H in I.
    assert (existsb f l = true) by (apply existsb_exists; eauto). congruence.
Qed.

Lemma bool_ext : forall a b : bool, (a = true <-> b = true) -> a = b.
Proof. destruct a, b; intros; auto; destruct H; [symmetry|]; auto. Qed.

Lemma inv_calling : forall p th l st a b, inv p th l st -> existsb (eqp (a, b)) (map (pair_of p) (samples th)) = calling st a b.
Proof.
  intros p th l st a b I. apply bool_ext. rewrite calling_iff, existsb_exists.
  rewrite <- (aligned_in _ _ _ (i_aligned _ _ _ _ I)), <- in_rev.
  split.
  - intros (e & J & Q). apply eqp_true in Q. subst; auto.
  - intro J. exists (a, b). split; auto. apply eqp_true; auto.
Qed.

Lemma inv_called : forall p th l st b, inv p th l st -> existsb (fun e => Nat.eqb (snd e) b) (map (pair_of p) (samples th)) = called st b.
Proof.
  intros p th l st b I. apply bool_ext. rewrite called_iff, existsb_exists.
  split.
  - intros ([a b'] & J & Q). apply Nat.eqb_eq in Q. simpl in Q. subst. exists a.
    rewrite <- (aligned_in _ _ _ (i_aligned _ _ _ _ I)), <- in_rev. auto.
  - intros (a & J). rewrite <- (aligned_in _ _ _ (i_aligned _ _ _ _ I)), <- in_rev in J. exists (a, b). simpl.
    rewrite Nat.eqb_refl. auto.
Qed.

Lemma inv_called_size : forall p th l st b, inv p th l st -> called st b = true -> b < size p.
Proof.
  intros p th l st b I C. rewrite <- (inv_called _ _ _ _ _ I) in C. apply existsb_exists in C.
  destruct C as (e & J & Q). apply Nat.eqb_eq in Q. apply in_map_iff in J. destruct J as (s & <- & J).
  pose proof (i_valid _ _ _ _ I) as V. rewrite Forall_forall in V. apply V in J.
  destruct (wf_in _ (i_wf _ _ _ _ I) _ _ J) as (d & D & L). simpl in Q. unfold idof in Q. rewrite D in Q. lia.
Qed.

Lemma inv_top : forall p th l st, inv p th l st -> st <> [] ->
  exists b n cs es st', l = (b, n) :: cs /\ st = (b, es) :: st' /\ b < size p /\ top_entry th = Some (Entry (Some b) (Some n)).
Proof.
  intros p th l st I NE. pose proof (i_aligned _ _ _ _ I) as A. inversion A; subst; [contradiction|].
  eexists _, _, _, _, _. split; [reflexivity|]. split; [reflexivity|]. split.
  - pose proof (i_blocks _ _ _ _ I) as B. inversion B; subst. auto.
  - pose proof (i_rep _ _ _ _ I) as R. unfold rep in R. simpl in R. eapply top_rep; eauto.
Qed.

Lemma nth_repeat_lt : forall A (x d : A) n i, i < n -> nth i (repeat x n) d = x.
Proof. induction n; destruct i; simpl; intros; try lia; auto. apply IHn. lia. Qed.

Lemma sample_ok : forall p th l st t, inv p th l st -> st <> [] ->
  exists q, sample p th t = Some q /\ same_shape p q /\ inv q th l st /\ recorded p q (fun f => f st (Sample t)).
Proof.
  intros p th l st t I NE. destruct (inv_top _ _ _ _ I NE) as (b & n & cs & es & st' & El & Est & LB & TE).
  unfold sample. rewrite TE. cbn [bind e_id].
  pose proof (i_wf _ _ _ _ I) as W.
  destruct (charge_self_ok p b t W LB) as (p1 & E1 & W1 & S1 & SE1 & T1 & C1 & CA1 & CD1).
  rewrite E1. cbn [bind].
  assert (I1 : inv p1 th l st) by (eapply inv_shape; eauto).
  destruct (charge_samples_ok (samples th) (repeat false (length (blocks p1))) p1 t W1 (i_valid _ _ _ _ I1) (i_nodup _ _ _ _ I1))
    as (p2 & E2 & W2 & S2 & SE2 & C2 & T2 & CC2 & CT2 & P2).
  { apply repeat_length. }
  rewrite E2. cbn [bind].
  assert (R2 : 0 < size p2) by apply W2.
  destruct (charge_block_ok p2 0 t W2 R2) as (p3 & E3 & W3 & S3 & T3 & SE3 & C3 & CA3 & CD3).
  assert (SS : same_shape p p3) by (eauto using same_shape_trans).
  exists p3. split; [auto|]. split; [auto|]. split; [apply (inv_shape p); auto|].
  constructor; simpl.
  - intro c. rewrite SE3, SE2, SE1. rewrite Est. reflexivity.
  - intro c. rewrite C3, C2, C1. apply keep; auto. apply range1; auto.
  - intro c. rewrite T3, T2, T1, w64_add, (inv_called _ _ _ _ c I1). f_equal. rewrite (Nat.eqb_sym 0 c).
    destruct (Nat.lt_ge_cases c (size p1)).
    + rewrite nth_repeat_lt by auto. cbn [negb andb].
      destruct (Nat.eqb_spec c 0); [subst c|]; destruct (called st _) eqn:CS; simpl; rewrite ?CS, ?andb_false_r; simpl; lia.
    + rewrite nth_overflow by (rewrite repeat_length; auto).
      destruct (called st c) eqn:CS. { apply (inv_called_size _ _ _ _ _ I1) in CS. lia. }
      pose proof (wf_root _ W1). destruct (Nat.eqb_spec c 0); [lia|]. simpl. rewrite andb_false_r. simpl. lia.
  - intros a c. unfold call_count_of at 1. rewrite CA3. fold (call_count_of p2 a c). rewrite CC2.
    unfold call_count_of. rewrite CA1. apply keep; auto. apply range0; auto.
  - intros a c. unfold call_time_of at 1. rewrite CA3. fold (call_time_of p2 a c). rewrite CT2.
    unfold call_time_of. rewrite CA1. rewrite (inv_calling _ _ _ _ _ _ I1). reflexivity.
  - intros a c. rewrite CA3, P2, CA1. tauto.
Qed.

(** ** Adding a block. *)
Lemma add_block_nth : forall p n c, nth_error (blocks (fst (add_block p n))) c =
  if Nat.eqb c (size p) then Some (BP n 0 0 0 []) else nth_error (blocks p) c.
Proof.
  intros. simpl. destruct (Nat.eqb_spec c (size p)).
  - subst. rewrite nth_error_app2 by (unfold size; lia). unfold size. rewrite Nat.sub_diag. auto.
  - destruct (Nat.lt_ge_cases c (size p)).
    + apply nth_error_app1; auto.
    + transitivity (@None blockp); [|symmetry]; apply nth_error_None; [rewrite app_length; simpl|]; unfold size in *; lia.
Qed.

Lemma add_block_callees : forall p n a, callees (fst (add_block p n)) a = callees p a.
Proof.
  intros. unfold callees. rewrite add_block_nth. destruct (Nat.eqb_spec a (size p)); auto.
  subst. destruct (nth_error (blocks p) (size p)) eqn:E; auto. apply nth_some_lt in E. unfold size in E. lia.
Qed.

Lemma add_block_size : forall p n, size (fst (add_block p n)) = S (size p).
Proof. intros. unfold size. simpl. rewrite app_length. simpl. lia. Qed.

Lemma add_block_ok : forall p n, wf p -> wf (fst (add_block p n)) /\ same_numbers p (fst (add_block p n)) /\
  forall a b, call_of (fst (add_block p n)) a b = call_of p a b.
Proof.
  intros p n W. split; [|split].
  - constructor.
    + intros a x I. rewrite add_block_callees in I. destruct (wf_in _ W _ _ I) as (d & D & L). exists d. rewrite add_block_size. auto.
    + intro a. rewrite add_block_callees. apply (wf_sorted _ W a).
    + intros a a' x. rewrite !add_block_callees. apply (wf_owner _ W).
    + simpl. apply Forall_app; split; [apply W|]. constructor; auto. split; [|split]; unfold in_range; simpl; lia.
    + apply W.
    + rewrite add_block_size. lia.
  - assert (Z : nth_error (blocks p) (size p) = None) by (apply nth_error_None; auto).
    repeat split; intro b; unfold self_of, count_of, time_of; rewrite add_block_nth; destruct (Nat.eqb_spec b (size p)); auto; subst; rewrite Z; auto.
  - intros. apply call_of_cds; auto. intro. apply add_block_callees.
Qed.

Lemma inv_add_block : forall p n th l st, inv p th l st -> inv (fst (add_block p n)) th l st.
Proof.
  intros p n th l st [].
  assert (ID : forall x, idof (fst (add_block p n)) x = idof p x) by reflexivity.
  constructor; auto.
  - apply add_block_ok; auto.
  - eapply Forall_impl; [|exact i_valid0]. intros s. unfold valid. rewrite add_block_callees. auto.
  - rewrite add_block_size. lia.
  - eapply Forall_impl; [|exact i_blocks0]. intros s. rewrite add_block_size. lia.
Qed.

(** ** Entering a block. *)
Lemma nth_repeat_inv : forall A (x : A) n a v, nth_error (repeat x n) a = Some v -> v = x.
Proof. induction n; destruct a; simpl; intros; try discriminate; eauto. congruence. Qed.

Lemma resize_ok : forall p th l st caller, inv p th l st -> caller < size p ->
  inv p (resize p th caller) l st /\ caller < length (sset (resize p th caller)) /\ samples (resize p th caller) = samples th.
Proof.
  intros p th l st caller I L. unfold resize. destruct (Nat.leb_spec (length (sset th)) caller); [|auto].
  split; [|split].
  - destruct I. constructor; auto.
    + simpl. rewrite firstn_all2 by auto. destruct i_mirror0 as [M1 M2]. split.
      * intros a v N. destruct (Nat.lt_ge_cases a (length (sset th))).
        -- rewrite nth_error_app1 in N by auto. auto.
        -- rewrite nth_error_app2 in N by auto. apply nth_repeat_inv in N. subst v. simpl. split; auto.
           replace (filter (fun s : nat * nat => fst s =? a) (samples th)) with (@nil (nat * nat)); auto.
           symmetry. assert (Q : forall s, In s (samples th) -> (fst s =? a) = false).
           { intros s J. apply M2 in J. apply Nat.eqb_neq. lia. }
           revert Q. generalize (samples th). induction l0; simpl; intros; auto. rewrite Q by auto. auto.
      * intros s J. apply M2 in J. rewrite app_length. lia.
    + simpl. rewrite firstn_all2 by auto. rewrite app_length, repeat_length. unfold size in *. lia.
  - simpl. rewrite firstn_all2 by apply I. rewrite app_length, repeat_length. unfold size in *. lia.
  - reflexivity.
Qed.

Lemma find_call_ok : forall p xs callee, (forall x, In x xs -> x < length (cds p)) ->
  (exists x, find_call p xs callee = Some (Some x) /\ In x xs /\ idof p x = callee) \/
  find_call p xs callee = Some None /\ forall x, In x xs -> idof p x <> callee.
Proof.
  induction xs; simpl; intros; auto.
  destruct (idof_some p a (H _ (or_introl eq_refl))) as (d & D & ID). rewrite D. cbn [bind].
  destruct (Nat.eqb_spec (cd_id d) callee).
  - left. exists a. split; [auto|]. split; [auto|]. congruence.
  - destruct (IHxs callee) as [(x & E & I & Q)|(E & Q)]; [intros; apply H; auto| |].
    + left. exists x. auto.
    + right. split; auto. intros x [<-|I]; auto. congruence.
Qed.

Lemma push_sample_ok : forall th caller x, length (samples th) <= sample_capacity th /\ 0 < sample_capacity th ->
  exists c, push_sample th caller x = Some (with_samples th (samples th ++ [(caller, x)]) c) /\ S (length (samples th)) <= c /\ 0 < c.
Proof.
  intros. unfold push_sample. cbv zeta. destruct (Nat.eqb_spec (length (samples th)) (sample_capacity th)).
  - exists (sample_capacity th * 2). replace (length (samples th) <? sample_capacity th * 2) with true by (symmetry; apply Nat.ltb_lt; lia).
    split; auto. lia.
  - exists (sample_capacity th). replace (length (samples th) <? sample_capacity th) with true by (symmetry; apply Nat.ltb_lt; lia).
    split; auto. lia.
Qed.

Lemma push_ev_ok : forall v x, length (ev_xs v) <= ev_capacity v ->
  exists v', push_ev v x = Some v' /\ ev_xs v' = ev_xs v ++ [x] /\ length (ev_xs v') <= ev_capacity v'.
Proof.
  intros. unfold push_ev. cbv zeta. destruct (Nat.eqb_spec (ev_capacity v) 0).
  - assert (ev_xs v = []) by (destruct (ev_xs v); simpl in *; auto; lia). rewrite H0. simpl. eexists; split; [reflexivity|]. simpl. auto.
  - destruct (Nat.eqb_spec (length (ev_xs v)) (ev_capacity v)); simpl.
    + replace (length (ev_xs v) <? ev_capacity v * 2) with true by (symmetry; apply Nat.ltb_lt; lia).
      eexists; split; [reflexivity|]. simpl. rewrite app_length. simpl. split; auto. lia.
    + replace (length (ev_xs v) <? ev_capacity v) with true by (symmetry; apply Nat.ltb_lt; lia).
      eexists; split; [reflexivity|]. simpl. rewrite app_length. simpl. split; auto. lia.
Qed.

Lemma inv_grow : forall p q th l st, inv p th l st -> wf q -> size q = size p ->
  (forall y a, In y (callees p a) -> In y (callees q a) /\ idof q y = idof p y) -> inv q th l st.
Proof.
  intros p q th l st I W SZ G.
  assert (PE : map (pair_of q) (samples th) = map (pair_of p) (samples th)).
  { apply map_ext_in. intros s J. unfold pair_of. f_equal. pose proof (i_valid _ _ _ _ I) as V. rewrite Forall_forall in V.
    apply (G _ _ (V _ J)). }
  destruct I. constructor; auto; rewrite ?PE, ?SZ; auto.
  rewrite Forall_forall in *. intros s J. apply G. apply i_valid0. auto.
Qed.

Lemma mirrored_push : forall ss l caller x v v', mirrored ss l -> nth_error l caller = Some v ->
  ev_xs v' = ev_xs v ++ [x] -> length (ev_xs v') <= ev_capacity v' ->
  mirrored (ss ++ [(caller, x)]) (upd l caller v').
Proof.
  intros ss l caller x v v' [M1 M2] N E C. split.
  - intros a u U. rewrite filter_app, map_app. simpl. destruct (Nat.eqb_spec caller a).
    + subst. rewrite nth_upd_same in U by (eapply nth_some_lt; eauto). inversion U; subst.
      destruct (M1 _ _ N) as [Q _]. split; [rewrite E, Q; reflexivity|exact C].
    + rewrite nth_upd_other in U by auto. simpl. rewrite List.app_nil_r. auto.
  - intros s J. rewrite upd_length. apply in_app_or in J. destruct J as [J|[<-|[]]]; auto.
    simpl. eapply nth_some_lt; eauto.
Qed.

(** A thread whose sample stack is that of another. *)
Lemma frame_stage : forall th b0 n0 cs (rp : bool), rep th ((b0, n0) :: cs) ->
  exists th1 i n rest,
    (if rp then Some th else bind (push th) (fun th => bind (top_entry th) (fun call => set_top th (Entry (e_id call) (Some 0))))) = Some th1 /\
    rep_raw th1 (Entry i (Some n) :: map entry_of rest) /\ (n, rest) = (if rp then (n0, cs) else (0, (b0, n0) :: cs)) /\
    samples th1 = samples th /\ sample_capacity th1 = sample_capacity th /\ sset th1 = sset th.
Proof.
  intros th b0 n0 cs rp R. destruct rp.
  - exists th, (Some b0), n0, cs. split; [reflexivity|]. split; [exact R|]. auto.
  - unfold rep in R. simpl in R. destruct (push_rep _ _ _ R) as (th1 & e & E & R1 & A1 & A2 & A3 & A4).
    rewrite E. cbn [bind]. rewrite (top_rep _ _ _ R1). cbn [bind].
    destruct (set_top_rep _ _ _ (Entry (e_id e) (Some 0)) R1) as (th2 & E2 & R2 & B1 & B2 & B3 & B4).
    exists th2, (e_id e), 0, ((b0, n0) :: cs). split; [auto|]. split; [exact R2|]. split; [auto|].
    split; [congruence|]. split; congruence.
Qed.

Lemma enter_ok : forall p th l st b (rp : bool), inv p th l st -> st <> [] -> b < size p ->
  let o := if rp then Replace b else Enter b in
  exists q th' l', enter_block p th b rp = Some (q, th') /\ size q = size p /\ enabled q = enabled p /\
    inv q th' l' (after st o) /\ recorded p q (fun f => f st o) /\
    exists ext, samples th' = samples th ++ ext /\
      l' = (b, length ext + (if rp then snd (hd (0, 0) l) else 0)) :: (if rp then tl l else l).
Proof.
  intros p th l st b rp I NE LB o.
  destruct (inv_top _ _ _ _ I NE) as (caller & n0 & cs & es & st' & El & Est & LC & TE).
  pose proof (i_wf _ _ _ _ I) as W.
  unfold enter_block. rewrite TE. cbn [bind e_id]. cbv zeta.
  destruct (inc_block_ok p b W LB) as (p1 & E1 & W1 & S1 & SE1 & T1 & C1 & CA1 & CD1).
  rewrite E1. cbn [bind].
  assert (I1 : inv p1 th l st) by (apply (inv_shape p); auto).
  assert (SZ1 : size p1 = size p) by apply S1.
  destruct (resize_ok p1 th l st caller I1) as (IR & LR & SR); [lia|].
  set (thr := resize p1 th caller) in *. clearbody thr.
  destruct (nth_lt _ _ _ LR) as (v & NV). rewrite NV. cbn [bind].
  destruct (i_mirror _ _ _ _ IR) as [M1 M2]. destruct (M1 _ _ NV) as [VX VC].
  assert (MEM : forall x, In x (ev_xs v) <-> In (caller, x) (samples thr)).
  { intro x. rewrite VX, in_map_iff. split.
    - intros ([a y] & <- & J). apply filter_In in J. destruct J as [J Q]. apply Nat.eqb_eq in Q. simpl in *. subst; auto.
    - intro J. exists (caller, x). split; auto. apply filter_In. simpl. rewrite Nat.eqb_refl. auto. }
  assert (VAL : forall x, In x (ev_xs v) -> In x (callees p1 caller)).
  { intros x J. apply MEM in J. pose proof (i_valid _ _ _ _ IR) as V. rewrite Forall_forall in V. apply (V _ J). }
  (* the call data *)
  assert (GOT : exists p2 x run,
    (bind (find_call p1 (ev_xs v) b) (fun found => match found with
        | Some x => Some (p1, x, true)
        | None => bind (get_call_data p1 caller b) (fun r => Some (fst r, snd r, false)) end)) = Some (p2, x, run) /\
    wf p2 /\ size p2 = size p1 /\ enabled p2 = enabled p1 /\ In x (callees p2 caller) /\ idof p2 x = b /\
    same_numbers p1 p2 /\
    (forall y a', In y (callees p1 a') -> In y (callees p2 a') /\ idof p2 y = idof p1 y) /\
    (exists d, nth_error (cds p2) x = Some d /\ (call_of p1 caller b = Some d \/ call_of p1 caller b = None /\ d = CD b 0 0) /\
      (forall a' b', call_of p2 a' b' = if eqp (a', b') (caller, b) then Some d else call_of p1 a' b')) /\
    (run = true <-> calling st caller b = true)).
  { assert (RUN : forall r : bool, (r = true -> exists x, In x (ev_xs v) /\ idof p1 x = b) ->
                   (r = false -> forall x, In x (ev_xs v) -> idof p1 x <> b) -> (r = true <-> calling st caller b = true)).
    { intros r R1 R2. rewrite calling_iff, <- (aligned_in _ _ _ (i_aligned _ _ _ _ IR)), <- in_rev. split.
      - intro Q. destruct (R1 Q) as (x & J & ID). apply in_map_iff. exists (caller, x). split; [|apply MEM; auto].
        unfold pair_of; simpl. congruence.
      - intro J. destruct r; auto. exfalso. apply in_map_iff in J. destruct J as ([a x] & Q & J). unfold pair_of in Q; simpl in Q.
        inversion Q; subst. apply MEM in J. apply (R2 eq_refl _ J). auto. }
    destruct (find_call_ok p1 (ev_xs v) b) as [(x & E & J & ID)|(E & NO)].
    { intros x J. apply VAL in J. destruct (wf_in _ W1 _ _ J) as (d & D & _). eapply nth_some_lt; eauto. }
    - rewrite E. cbn [bind]. exists p1, x, true. split; [reflexivity|]. pose proof (VAL _ J) as JV.
      destruct (wf_in _ W1 _ _ JV) as (d & D & LD).
      assert (CO : call_of p1 caller b = Some d) by (rewrite <- ID; apply call_of_valid; auto).
      split; [auto|]. split; [auto|]. split; [auto|]. split; [auto|]. split; [auto|]. split; [repeat split; auto|]. split; [auto|]. split.
      + exists d. split; [auto|]. split; [auto|]. intros a' b'. destruct (eqp (a', b') (caller, b)) eqn:Q; auto.
        apply eqp_true in Q. inversion Q; subst. auto.
      + apply RUN; [|discriminate]. intros _. exists x. auto.
    - rewrite E. cbn [bind].
      destruct (get_call_data_ok p1 caller b W1) as (p2 & x & d & G & W2 & SZ2 & EN2 & D2 & J2 & ID2 & OLD & NUM & CO & GR & _); try lia.
      rewrite G. cbn [bind fst snd]. exists p2, x, false. split; [reflexivity|].
      split; [auto|]. split; [auto|]. split; [auto|]. split; [auto|]. split; [unfold idof; rewrite D2; auto|].
      split; [auto|]. split; [auto|]. split; [eauto|].
      apply RUN; [discriminate|]. auto. }
  destruct GOT as (p2 & x & run & EG & W2 & SZ2 & EN2 & JX & IDX & (N1 & N2 & N3) & GR & (d & D2 & OLD & CO2) & RUN).
  destruct (find_call p1 (ev_xs v) b) as [found|]; [|discriminate]. cbn [bind] in EG |- *.
  rewrite EG. cbn [bind]. clear EG found.
  destruct (inc_call_ok p2 caller x W2 JX) as (p3 & d' & E3 & W3 & S3 & (N4 & N5 & N6) & D3 & ID3 & CO3).
  assert (d' = d) by congruence. subst d'.
  rewrite E3. cbn [bind].
  assert (I3 : inv p3 thr l st).
  { apply (inv_shape p2); auto. apply (inv_grow p1); auto. }
  assert (JX3 : In x (callees p3 caller)) by (rewrite (ss_callees _ _ S3); auto).
  assert (IDX3 : idof p3 x = b) by (rewrite (ss_id _ _ S3); auto).
  assert (SZ3 : size p3 = size p) by (rewrite (ss_size _ _ S3); lia).
  (* the record *)
  assert (REC : recorded p p3 (fun f => f st o)).
  { assert (CUR : current st = caller) by (rewrite Est; auto).
    assert (CALL : forall a' b', call_of p3 a' b' = if eqp (a', b') (caller, b) then Some (CD (cd_id d) (w64 (cd_count d + 1)) (cd_time d)) else call_of p a' b').
    { intros a' b'. rewrite CO3, IDX, CO2, CA1. destruct (eqp _ _); auto. }
    assert (O1 : forall c, self_time c st o = 0%Z) by (intro; unfold o; destruct rp; reflexivity).
    assert (O2 : forall c, block_time c st o = 0%Z) by (intro; unfold o; destruct rp; reflexivity).
    assert (O3 : forall c, root_again c st o = 0%Z) by (intro; unfold o; destruct rp; reflexivity).
    assert (O4 : forall a c, call_time a c st o = 0%Z) by (intros; unfold o; destruct rp; reflexivity).
    assert (O5 : forall c, block_count c st o = if_ (c =? b) 1) by (intros; unfold o; destruct rp; reflexivity).
    assert (O6 : forall a c, call_count a c st o = if_ (eqp (a, c) (caller, b)) 1).
    { intros a c. unfold eqp; cbn [fst snd]. unfold o, call_count. rewrite CUR. destruct rp; reflexivity. }
    rewrite CA1 in OLD.
    constructor.
    - intro c. rewrite N4, N1, SE1. apply keep; auto. apply range1; auto.
    - intro c. rewrite N5, N2, C1, O5. reflexivity.
    - intro c. rewrite N6, N3, T1. apply keep. apply range1; auto. rewrite O2, O3; auto.
    - intros a c. unfold call_count_of. rewrite CALL, O6. destruct (eqp (a, c) (caller, b)) eqn:Q.
      + apply eqp_true in Q. inversion Q; subst a c. cbn [cd_count if_]. destruct OLD as [->|[-> ->]]; auto.
      + fold (call_count_of p a c). apply keep; auto. apply range0; auto.
    - intros a c. unfold call_time_of. rewrite CALL, O4. destruct (eqp (a, c) (caller, b)) eqn:Q.
      + apply eqp_true in Q. inversion Q; subst a c. cbn [cd_time]. pose proof (proj2 (nth_call_ok _ _ _ W2 D2)). destruct OLD as [->|[-> ->]]; apply keep; auto.
      + fold (call_time_of p a c). apply keep; auto. apply range0; auto.
    - intros a c. rewrite CALL, O6. destruct (eqp (a, c) (caller, b)); cbn [if_]; split; try tauto; [discriminate|intros []; discriminate]. }
  (* the stack *)
  pose proof (i_rep _ _ _ _ I3) as R. rewrite El in R.
  destruct (frame_stage thr caller n0 cs rp R) as (th1 & i & n & rest & EF & RF & EN & F1 & F2 & F3).
  rewrite EF. cbn [bind]. rewrite (top_rep _ _ _ RF). cbn [bind e_exit].
  destruct (set_top_rep _ _ _ (Entry (Some b) (Some n)) RF) as (th2 & ET & RT & G1 & G2 & G3 & G4).
  rewrite ET. cbn [bind].
  (* the calls before, as a list *)
  assert (AL : exists seg rest', rev (map (pair_of p3) (samples thr)) = seg ++ rest' /\ aligned rest (rest') (if rp then st' else st) /\ n = length seg /\
     (forall e, In e (seg ++ rest') <-> In e (if rp then es else []) \/ in_st (if rp then st' else st) e)).
  { pose proof (i_aligned _ _ _ _ I3) as A. rewrite El, Est in A. destruct rp.
    - inversion EN; subst n rest. inversion A; subst. eexists _, _. split; [reflexivity|]. auto.
    - inversion EN; subst n rest. exists [], (rev (map (pair_of p3) (samples thr))). split; [auto|]. split.
      + rewrite <- El. rewrite El, Est. exact A.
      + split; auto. intro e. simpl. rewrite Est. rewrite <- (aligned_in _ _ _ A). tauto. }
  destruct AL as (seg & rest' & AE & AR & AN & AI).
  assert (AFT : after st o = (b, (caller, b) :: if rp then es else []) :: (if rp then st' else st)).
  { unfold o. rewrite Est. destruct rp; reflexivity. }
  assert (INST : calling st caller b = true <-> In (caller, b) (seg ++ rest')).
  { rewrite calling_iff, <- (aligned_in _ _ _ (i_aligned _ _ _ _ I3)), AE. reflexivity. }
  assert (BL : Forall (fun c => fst c < size p3) rest).
  { pose proof (i_blocks _ _ _ _ I3) as B. rewrite El in B. destruct rp; inversion EN; subst n rest; auto. inversion B; auto. }
  destruct run.
  - exists p3, th2, ((b, n) :: rest). split; [reflexivity|]. split; [auto|]. split.
    { rewrite (ss_enabled _ _ S3), EN2. apply S1. }
    split; [|split; [auto|]]. 2:{ exists []. rewrite G1, F1, SR, List.app_nil_r. split; auto. rewrite El. destruct rp; inversion EN; subst n rest; reflexivity. }
    assert (IN : In (caller, b) (seg ++ rest')) by (apply INST, RUN; auto).
    destruct I3. constructor; auto; rewrite ?G1, ?G2, ?G3, ?F1, ?F2, ?F3; auto.
    + rewrite AE, AFT, AN. constructor; auto. intro e. simpl. rewrite AI. split; [tauto|]. intros [[<-|?]|?]; auto. apply AI; auto.
    + constructor; auto. simpl. lia.
  - assert (NI : ~ In (caller, b) (seg ++ rest')).
    { intro J. apply INST, RUN in J. discriminate. }
    destruct (push_sample_ok th2 caller x) as (c & EP & PC1 & PC2).
    { rewrite G1, G2, F1, F2. apply I3. }
    rewrite EP. cbn [bind].
    assert (R2 : rep_raw (with_samples th2 (samples th2 ++ [(caller, x)]) c) (Entry (Some b) (Some n) :: map entry_of rest)) by exact RT.
    rewrite (top_rep _ _ _ R2). cbn [bind e_exit e_id].
    destruct (set_top_rep _ _ _ (Entry (Some b) (Some (S n))) R2) as (th3 & ET3 & RT3 & H1 & H2 & H3 & H4).
    rewrite ET3. cbn [bind]. cbn [samples sample_capacity sset with_samples] in H1, H2, H3.
    assert (SS3 : sset th3 = sset thr) by congruence.
    rewrite SS3, NV. cbn [bind].
    destruct (push_ev_ok v x VC) as (v' & EV' & XV & CV). rewrite EV'. cbn [bind].
    exists p3, (with_sset th3 (upd (sset thr) caller v')), ((b, S n) :: rest). split; [reflexivity|]. split; [auto|]. split.
    { rewrite (ss_enabled _ _ S3), EN2. apply S1. }
    split; [|split; [auto|]]. 2:{ exists [(caller, x)]. cbn [samples with_sset]. split; [congruence|]. rewrite El. destruct rp; inversion EN; subst n rest; reflexivity. }
    assert (SM : samples th3 = samples thr ++ [(caller, x)]) by (rewrite H1, G1, F1; auto).
    assert (PE : map (pair_of p3) (samples th3) = map (pair_of p3) (samples thr) ++ [(caller, b)]).
    { rewrite SM, map_app. simpl. unfold pair_of at 2. simpl. rewrite IDX3. auto. }
    constructor; auto; cbn [samples sample_capacity sset with_sset].
    + rewrite PE, rev_app_distr, AE, AFT. simpl rev. cbn [app].
      change ((caller, b) :: seg ++ rest') with (((caller, b) :: seg) ++ rest'). rewrite AN.
      change (S (length seg)) with (length ((caller, b) :: seg)). constructor; auto.
      intro e. simpl. rewrite AI. tauto.
    + rewrite PE. apply (Permutation_NoDup (l := (caller, b) :: map (pair_of p3) (samples thr))).
      * apply Permutation_cons_append.
      * constructor; [|apply I3]. intro J. apply NI. rewrite <- AE. apply in_rev in J. auto.
    + rewrite SM. apply Forall_app; split; [apply I3|]. constructor; auto.
    + rewrite SM. eapply mirrored_push; eauto. apply I3.
    + rewrite H2, SM, app_length. simpl. rewrite G1, F1 in PC1. lia.
    + rewrite upd_length. apply I3.
    + constructor; auto. simpl. lia.
Qed.

(** ** Leaving a block. *)
Lemma mirrored_pop : forall ss l a x v, mirrored (ss ++ [(a, x)]) l -> nth_error l a = Some v ->
  exists m, length (ev_xs v) = S m /\ mirrored ss (upd l a (EV (ev_capacity v) (firstn m (ev_xs v)))).
Proof.
  intros ss l a x v [M1 M2] N. destruct (M1 _ _ N) as [VX VC].
  rewrite filter_app, map_app in VX. simpl in VX. rewrite Nat.eqb_refl in VX. simpl in VX.
  exists (length (map snd (filter (fun s => Nat.eqb (fst s) a) ss))).
  assert (LV : length (ev_xs v) = S (length (map snd (filter (fun s => Nat.eqb (fst s) a) ss)))).
  { rewrite VX, app_length. simpl. lia. }
  split; [auto|]. split.
  - intros c u U. destruct (Nat.eq_dec a c).
    + subst c. rewrite nth_upd_same in U by (eapply nth_some_lt; eauto). inversion U; subst u. cbn [ev_xs ev_capacity].
      rewrite VX at 1 2. rewrite firstn_app, Nat.sub_diag, firstn_all. simpl. rewrite List.app_nil_r. split; auto. lia.
    + rewrite nth_upd_other in U by auto. destruct (M1 _ _ U) as [UX UC]. split; auto.
      rewrite UX, filter_app, map_app. simpl. destruct (Nat.eqb_spec a c); [contradiction|]. simpl. apply List.app_nil_r.
  - intros s J. rewrite upd_length. apply M2. apply in_or_app; auto.
Qed.

Lemma exit_loop_ok : forall s2 s1 th b cs fuel, rep th ((b, length s2) :: cs) -> samples th = s1 ++ s2 ->
  mirrored (samples th) (sset th) -> length s2 <= fuel ->
  exists th', exit_loop fuel th = Some th' /\ rep th' ((b, 0) :: cs) /\ samples th' = s1 /\ mirrored s1 (sset th') /\
    length (sset th') = length (sset th) /\ sample_capacity th' = sample_capacity th.
Proof.
  induction s2 as [|[a x] s2 IH] using rev_ind; intros s1 th b cs fuel R E M L.
  - rewrite List.app_nil_r in E. assert (T : top_entry th = Some (entry_of (b, 0))) by (eapply top_rep; exact R).
    exists th. split.
    + destruct fuel; simpl; rewrite T; reflexivity.
    + subst s1. auto.
  - rewrite app_length in *. cbn [length] in *. replace (length s2 + 1) with (S (length s2)) in * by lia.
    destruct fuel as [|fuel]; [lia|].
    assert (T : top_entry th = Some (entry_of (b, S (length s2)))) by (eapply top_rep; exact R).
    cbn [exit_loop]. rewrite T. cbn [bind entry_of fst snd e_exit e_id].
    destruct (set_top_rep _ _ _ (Entry (Some b) (Some (length s2))) R) as (th1 & E1 & R1 & A1 & A2 & A3 & A4).
    rewrite E1. cbn [bind]. rewrite A1, E, app_assoc.
    assert (LL : length ((s1 ++ s2) ++ [(a, x)]) = S (length (s1 ++ s2))) by (rewrite app_length; simpl; lia).
    rewrite LL, nth_app. cbn [bind fst].
    assert (FN : firstn (length (s1 ++ s2)) ((s1 ++ s2) ++ [(a, x)]) = s1 ++ s2).
    { rewrite firstn_app, Nat.sub_diag, firstn_all. simpl. apply List.app_nil_r. }
    rewrite FN. cbn [sset with_samples]. rewrite A3.
    rewrite E, app_assoc in M. destruct M as [M1 M2].
    assert (LA : a < length (sset th)) by (apply (M2 (a, x)); apply in_or_app; simpl; auto).
    destruct (nth_lt _ _ _ LA) as (v & NV). rewrite NV. cbn [bind].
    destruct (mirrored_pop (s1 ++ s2) (sset th) a x v (conj M1 M2) NV) as (m & LM & MM).
    rewrite LM.
    destruct (IH s1 (with_sset (with_samples th1 (s1 ++ s2) (sample_capacity th1)) (upd (sset th) a (EV (ev_capacity v) (firstn m (ev_xs v)))))
                b cs fuel) as (th' & E' & R' & S' & M' & L' & C').
    + exact R1.
    + reflexivity.
    + exact MM.
    + lia.
    + exists th'. split; [exact E'|]. split; [exact R'|]. split; [exact S'|]. split; [exact M'|]. split.
      * rewrite L'. cbn [sset with_sset]. apply upd_length.
      * rewrite C'. exact A2.
Qed.

Lemma nodup_prefix : forall A (a b : list A), NoDup (a ++ b) -> NoDup a.
Proof.
  induction a; simpl; intros; constructor; inversion H; subst; eauto. intro. apply H2. apply in_or_app; auto.
Qed.

Lemma exit_ok : forall p th l st, inv p th l st -> 2 <= length st ->
  exists th', exit_block th = Some th' /\ inv p th' (tl l) (after st Exit) /\
    samples th' = firstn (length (samples th) - snd (hd (0, 0) l)) (samples th).
Proof.
  intros p th l st I L2. pose proof (i_aligned _ _ _ _ I) as A.
  inversion A as [|cs rest st' seg b es A' AI E1 E2 E3]; subst; [simpl in L2; lia|].
  assert (SP : exists s1 s2, samples th = s1 ++ s2 /\ length s2 = length seg /\ rest = rev (map (pair_of p) s1)).
  { exists (firstn (length (samples th) - length seg) (samples th)), (skipn (length (samples th) - length seg) (samples th)).
    assert (LE : length (samples th) = length seg + length rest).
    { apply (f_equal (@length _)) in E2. rewrite rev_length, map_length, app_length in E2. lia. }
    split; [symmetry; apply firstn_skipn|]. split; [rewrite skipn_length; lia|].
    rewrite <- (firstn_skipn (length (samples th) - length seg) (samples th)) in E2.
    rewrite map_app, rev_app_distr in E2.
    apply (f_equal (skipn (length seg))) in E2. rewrite skipn_app, Nat.sub_diag, skipn_all in E2. cbn [app skipn] in E2.
    rewrite E2. rewrite skipn_app.
    assert (LS : length (rev (map (pair_of p) (skipn (length (samples th) - length seg) (samples th)))) = length seg).
    { rewrite rev_length, map_length, skipn_length. lia. }
    rewrite LS, Nat.sub_diag, skipn_all2 by lia. reflexivity. }
  destruct SP as (s1 & s2 & ES & LS & ER).
  pose proof (i_rep _ _ _ _ I) as R. rewrite <- LS in R.
  destruct (exit_loop_ok s2 s1 th b cs (length (samples th)) R ES (i_mirror _ _ _ _ I)) as (th1 & X1 & R1 & S1 & M1 & L1 & C1).
  { rewrite ES, app_length. lia. }
  unfold exit_block. rewrite X1. cbn [bind].
  destruct cs as [|[b2 n2] cs]. { apply aligned_length in A'. simpl in *. lia. }
  unfold rep in R1. cbn [map] in R1.
  destruct (pop_rep _ _ _ _ R1) as (th2 & X2 & R2 & S2 & C2 & SS2 & _).
  exists th2. split; [exact X2|]. cbn [tl after hd snd].
  assert (SE : samples th2 = s1) by congruence.
  split.
  - destruct I. rewrite ES in *. constructor; auto; rewrite ?SE.
    + rewrite <- ER. exact A'.
    + rewrite map_app in i_nodup0. apply nodup_prefix in i_nodup0. exact i_nodup0.
    + apply Forall_app in i_valid0. tauto.
    + rewrite SS2. exact M1.
    + rewrite C2, C1. rewrite app_length in i_cap0. lia.
    + rewrite SS2, L1. auto.
    + inversion i_blocks0; auto.
  - rewrite SE, ES, app_length, <- LS. replace (length s1 + length s2 - length s2) with (length s1) by lia.
    rewrite firstn_app, Nat.sub_diag, firstn_all. simpl. rewrite List.app_nil_r. auto.
Qed.
