(** * The theorems about the profiler (C23-C25). *)
From Coq Require Import ZArith List Bool Lia Sorting.Sorted Permutation.
From Verif Require Import ProfileModel ProfileSpec ProfileStack ProfileProps ProfileThread.
Import ListNotations.
Local Open Scope list_scope.

Lemma call_count_nonneg : forall a b st o, (0 <= call_count a b st o)%Z.
Proof. intros. destruct o; simpl; try lia; unfold if_; destruct (_ && _); lia. Qed.

Lemma total_nonneg : forall f os st, (forall st o, (0 <= f st o)%Z) -> (0 <= total f st os)%Z.
Proof. induction os; simpl; intros; [lia|]. specialize (IHos (after st a) H). specialize (H st a). lia. Qed.

Lemma recorded_none : forall p, wf p -> recorded p p (fun _ => 0%Z).
Proof.
  intros p W. constructor; intros.
  - apply keep; auto. apply range1; auto.
  - apply keep; auto. apply range1; auto.
  - apply keep; auto. apply range1; auto.
  - apply keep; auto. apply range0; auto.
  - apply keep; auto. apply range0; auto.
  - tauto.
Qed.

Lemma recorded_trans : forall p q r v w, recorded p q v -> recorded q r w ->
  (forall a b, (0 <= v (call_count a b))%Z) -> (forall a b, (0 <= w (call_count a b))%Z) ->
  recorded p r (fun f => (v f + w f)%Z).
Proof.
  intros p q r v w [A1 A2 A3 A4 A5 A6] [B1 B2 B3 B4 B5 B6] P1 P2. constructor; intros.
  - rewrite B1, A1, w64_add. f_equal. lia.
  - rewrite B2, A2, w64_add. f_equal. lia.
  - rewrite B3, A3, w64_add. f_equal. lia.
  - rewrite B4, A4, w64_add. f_equal. lia.
  - rewrite B5, A5, w64_add. f_equal. lia.
  - rewrite B6, A6. specialize (P1 a b). specialize (P2 a b). intuition lia.
Qed.

Lemma recorded_same : forall p q, wf p -> same_numbers p q -> (forall a b, call_of q a b = call_of p a b) -> recorded p q (fun _ => 0%Z).
Proof.
  intros p q W (N1 & N2 & N3) C. constructor; intros.
  - rewrite N1. apply keep; auto. apply range1; auto.
  - rewrite N2. apply keep; auto. apply range1; auto.
  - rewrite N3. apply keep; auto. apply range1; auto.
  - unfold call_count_of. rewrite C. fold (call_count_of p a b). apply keep; auto. apply range0; auto.
  - unfold call_time_of. rewrite C. fold (call_time_of p a b). apply keep; auto. apply range0; auto.
  - rewrite C. tauto.
Qed.

(** How many blocks a history adds. *)
Fixpoint added (os : list op) : nat :=
  match os with [] => 0 | AddBlock _ :: r => S (added r) | _ :: r => added r end.

(** One step, all of it. *)
Lemma step_ok : forall p th l st o r, inv p th l st -> st <> [] -> allowed (size p) (length st - 1) (o :: r) = true ->
  exists q th' l', step p (Some th) o = Some (q, Some th') /\ size q = size p + added [o] /\ enabled q = enabled p /\
    inv q th' l' (after st o) /\ after st o <> [] /\ recorded p q (fun f => f st o) /\
    allowed (size q) (length (after st o) - 1) r = true /\
    match o with
    | Enter b => exists ext, samples th' = samples th ++ ext /\ l' = (b, length ext) :: l
    | Replace b => exists ext, samples th' = samples th ++ ext /\ l' = (b, length ext + snd (hd (0, 0) l)) :: tl l
    | Exit => samples th' = firstn (length (samples th) - snd (hd (0, 0) l)) (samples th) /\ l' = tl l
    | _ => samples th' = samples th /\ l' = l
    end.
Proof.
  intros p th l st o r I NE AL. destruct o as [nm|b|b| |t]; cbn [allowed step] in *.
  - exists (fst (add_block p nm)), th, l. split; [reflexivity|]. split; [rewrite add_block_size; simpl; lia|]. split; [reflexivity|].
    split; [apply inv_add_block; destruct st; auto|]. split; [destruct st; auto|].
    split.
    { pose proof (i_wf _ _ _ _ I) as W. destruct (add_block_ok p nm W) as (_ & N & C).
      destruct (recorded_same _ _ W N C). constructor; auto. }
    split; [rewrite add_block_size; destruct st; auto|]. auto.
  - apply andb_prop in AL. destruct AL as [LB AL]. apply Nat.ltb_lt in LB.
    destruct (enter_ok p th l st b false I NE LB) as (q & th' & l' & E & SZ & EN & I' & REC & ext & SM & LE).
    rewrite E. cbn [bind fst snd]. exists q, th', l'. rewrite SZ, EN.
    split; [reflexivity|]. split; [simpl; lia|]. split; [auto|]. split; [auto|].
    destruct st as [|[a es] st]; [contradiction|].
    split; [discriminate|]. split; [auto|]. split.
    + cbn [after length] in *. replace (S (S (length st)) - 1) with (S (S (length st) - 1)) by lia. auto.
    + exists ext. rewrite Nat.add_0_r in LE. auto.
  - apply andb_prop in AL. destruct AL as [LB AL]. apply Nat.ltb_lt in LB.
    destruct (enter_ok p th l st b true I NE LB) as (q & th' & l' & E & SZ & EN & I' & REC & ext & SM & LE).
    rewrite E. cbn [bind fst snd]. exists q, th', l'. rewrite SZ, EN.
    split; [reflexivity|]. split; [simpl; lia|]. split; [auto|]. split; [auto|].
    destruct st as [|[a es] st]; [contradiction|].
    split; [discriminate|]. split; [auto|]. split; [exact AL|]. exists ext. auto.
  - destruct (length st - 1) as [|d] eqn:D; [discriminate|].
    destruct (exit_ok p th l st I) as (th' & E & I' & SM); [lia|].
    rewrite E. cbn [bind]. exists p, th', (tl l).
    split; [reflexivity|]. split; [simpl; lia|]. split; [auto|]. split; [auto|].
    destruct st as [|x st]; [contradiction|]. cbn [after length] in *.
    split; [destruct st; simpl in *; [lia|discriminate]|]. split.
    + destruct (recorded_none p (i_wf _ _ _ _ I)). constructor; auto.
    + split; [|auto]. replace (length st - 1) with d by lia. auto.
  - destruct (sample_ok p th l st t I NE) as (q & E & SS & I' & REC).
    rewrite E. cbn [bind]. exists q, th, l. pose proof (ss_size _ _ SS). pose proof (ss_enabled _ _ SS).
    split; [reflexivity|]. split; [simpl; lia|]. split; [auto|].
    destruct st as [|x st]; [contradiction|]. cbn [after].
    split; [auto|]. split; [auto|]. split; [auto|]. split; [|auto]. rewrite H. auto.
Qed.

Lemma run_ok : forall os p th l st, inv p th l st -> st <> [] -> allowed (size p) (length st - 1) os = true ->
  exists q th' l', run p (Some th) os = Some (q, Some th') /\ size q = size p + added os /\ enabled q = enabled p /\
    inv q th' l' (fold_left after os st) /\ recorded p q (fun f => total f st os).
Proof.
  induction os as [|o os IH]; intros p th l st I NE AL.
  - exists p, th, l. cbn [run added fold_left]. split; [reflexivity|]. split; [lia|]. split; [auto|]. split; [auto|].
    apply recorded_none. apply I.
  - destruct (step_ok p th l st o os I NE AL) as (p1 & th1 & l1 & E1 & SZ1 & EN1 & I1 & NE1 & R1 & AL1 & _).
    destruct (IH p1 th1 l1 (after st o) I1 NE1 AL1) as (q & th' & l' & E & SZ & EN & I' & R).
    exists q, th', l'. cbn [run]. rewrite E1. cbn [bind fst snd].
    split; [exact E|]. split; [rewrite SZ, SZ1; destruct o; simpl; lia|]. split; [congruence|]. split; [exact I'|].
    exact (recorded_trans _ _ _ _ _ R1 R (fun a b => call_count_nonneg a b st o)
             (fun a b => total_nonneg _ os (after st o) (call_count_nonneg a b))).
Qed.

Lemma new_thread_ok : forall p r, wf p -> enabled p = true ->
  exists q th, new_thread p r = Some (q, Some th) /\ same_shape p q /\ inv q th [(0, 0)] start /\
    (forall c, self_of q c = self_of p c) /\ (forall c, time_of q c = time_of p c) /\
    (forall c, count_of q c = w64 (count_of p c + if_ (Nat.eqb c 0) 1)) /\
    (forall a c, call_of q a c = call_of p a c).
Proof.
  intros p r W EN. unfold new_thread. rewrite EN. cbv zeta.
  destruct (inc_block_ok p 0 W (wf_root _ W)) as (q & E & Wq & SS & A1 & A2 & A3 & A4 & A5).
  rewrite E. cbn [bind]. eexists _, _. split; [reflexivity|]. split; [auto|]. split; [|auto].
  constructor; auto; cbn [samples sset sample_capacity].
  - exists [], (CK 0 8 (upd (repeat uninit 8) 0 (Entry (Some 0) (Some 0)))), []. cbn [chunks cur lost].
    repeat split; auto; simpl; try lia. left; auto.
  - simpl. apply (al_cons [] [] [] [] 0 []); [constructor|]. intro e. simpl. unfold in_st. split; [tauto|].
    intros [[]|(f & [] & _)].
  - constructor.
  - constructor.
  - split; [|intros s []]. intros a v N. apply nth_repeat_inv in N. subst v. auto.
  - simpl. lia.
  - rewrite repeat_length, (ss_size _ _ SS). auto.
  - constructor; auto. simpl. apply Wq.
Qed.

(** ** C23: whatever a program does, the profile says what the history says.  Partial: the time
    of the root block (b = 0) is missing here, because the code charges it twice while a call
    to it is in progress ([root_charged_twice]); [root_is_exact] has the other case. *)
Theorem profile_is_exact_partial : forall p r os, wf p -> enabled p = true -> allowed (size p) 0 os = true ->
  exists p1 th1 q th,
    new_thread p r = Some (p1, th1) /\ run p1 th1 os = Some (q, th) /\ wf q /\ size q = size p + added os /\
    (forall b, self_of q b = w64 (self_of p b + total (self_time b) start os)) /\
    (forall b, count_of q b = w64 (count_of p b + if_ (Nat.eqb b 0) 1 + total (block_count b) start os)) /\
    (forall b, b <> 0 -> time_of q b = w64 (time_of p b + total (block_time b) start os)) /\
    (forall a b, call_count_of q a b = w64 (call_count_of p a b + total (call_count a b) start os)) /\
    (forall a b, call_time_of q a b = w64 (call_time_of p a b + total (call_time a b) start os)) /\
    (forall a b, call_of q a b = None <-> call_of p a b = None /\ total (call_count a b) start os = 0%Z).
Proof.
  intros p r os W EN AL.
  destruct (new_thread_ok p r W EN) as (p1 & th1 & E1 & SS & I1 & A1 & A2 & A3 & A4).
  destruct (run_ok os p1 th1 [(0, 0)] start I1) as (q & th & l & E & SZ & EN' & I & [R1 R2 R3 R4 R5 R6]).
  { discriminate. }
  { rewrite (ss_size _ _ SS). exact AL. }
  exists p1, (Some th1), q, (Some th). split; [auto|]. split; [auto|]. split; [apply I|].
  split; [rewrite SZ, (ss_size _ _ SS); auto|].
  split; [intro; rewrite R1, A1; auto|].
  split; [intro; rewrite R2, A3, w64_add; auto|].
  split.
  { intros b NB. rewrite R3, A2. f_equal. f_equal.
    assert (Z : total (root_again b) start os = 0%Z).
    { assert (QQ : forall os st, total (root_again b) st os = 0%Z).
      { induction os0; simpl; intros; auto. rewrite IHos0. destruct a; simpl; auto.
        destruct (Nat.eqb_spec b 0); [contradiction|]. rewrite andb_false_r. auto. }
      apply QQ. }
    lia. }
  split; [intros; rewrite R4; unfold call_count_of; rewrite A4; auto|].
  split; [intros; rewrite R5; unfold call_time_of; rewrite A4; auto|].
  intros; rewrite R6, A4. reflexivity.
Qed.

(** The root block is charged exactly once as well if it is never called.  *)
Definition enters_root (o : op) : bool := match o with Enter 0 | Replace 0 => true | _ => false end.

Lemma called_after : forall o st, enters_root o = false -> called st 0 = false -> called (after st o) 0 = false.
Proof.
  intros o st N C. destruct o as [n|b|b| |t], st as [|[a es] st]; simpl in *; auto.
  - destruct b; [discriminate|]. simpl. exact C.
  - destruct b; [discriminate|]. simpl. exact C.
  - apply orb_false_elim in C. tauto.
Qed.

Lemma root_again_none : forall os st, existsb enters_root os = false -> called st 0 = false -> total (root_again 0) st os = 0%Z.
Proof.
  induction os as [|o os IH]; simpl; intros st N C; auto. apply orb_false_elim in N. destruct N as [N1 N2].
  rewrite IH; auto using called_after. destruct o; simpl; auto. rewrite C. auto.
Qed.

Theorem root_is_exact : forall p r os, wf p -> enabled p = true -> allowed (size p) 0 os = true ->
  existsb enters_root os = false ->
  exists p1 th1 q th,
    new_thread p r = Some (p1, th1) /\ run p1 th1 os = Some (q, th) /\
    time_of q 0 = w64 (time_of p 0 + total (block_time 0) start os).
Proof.
  intros p r os W EN AL N.
  destruct (new_thread_ok p r W EN) as (p1 & th1 & E1 & SS & I1 & A1 & A2 & A3 & A4).
  destruct (run_ok os p1 th1 [(0, 0)] start I1) as (q & th & l & E & SZ & EN' & I & R).
  { discriminate. }
  { rewrite (ss_size _ _ SS). exact AL. }
  exists p1, (Some th1), q, (Some th). split; [auto|]. split; [auto|].
  rewrite (rec_time _ _ _ R), A2, (root_again_none os start N eq_refl). f_equal. lia.
Qed.

(** But it is charged twice while a call to it is in progress: one enter of the root block
    and a sample of 5 give it a time of 10. *)
Theorem root_charged_twice : exists p1 th1 q th,
  new_thread (new_profile true) 0 = Some (p1, th1) /\ run p1 th1 [Enter 0; Sample 5] = Some (q, th) /\
  time_of q 0 = 10%Z /\ total (block_time 0) start [Enter 0; Sample 5] = 5%Z.
Proof. do 4 eexists. split; [vm_compute; reflexivity|]. split; [vm_compute; reflexivity|]. split; vm_compute; reflexivity. Qed.

(** New profiles, and profiles blocks have been added to, are well formed; so are, by
    [profile_is_exact_partial], all profiles threads have run on. *)
Theorem new_profile_wf : forall en, wf (new_profile en) /\ size (new_profile en) = 1 /\ enabled (new_profile en) = en /\
  (forall b, self_of (new_profile en) b = 0%Z /\ count_of (new_profile en) b = 0%Z /\ time_of (new_profile en) b = 0%Z) /\
  forall a b, call_of (new_profile en) a b = None.
Proof.
  intro en.
  assert (CE : forall a, callees (new_profile en) a = []) by (intro a; destruct a as [|[|a]]; reflexivity).
  split; [|split; [reflexivity|split; [reflexivity|split]]].
  - constructor.
    + intros a x I. rewrite CE in I. destruct I.
    + intro a. rewrite CE. constructor.
    + intros a a' x I. rewrite CE in I. destruct I.
    + repeat constructor; simpl; lia.
    + constructor.
    + unfold size; simpl; lia.
  - intro b. destruct b as [|[|b]]; auto.
  - intros a b. unfold call_of. rewrite records_callees, CE. reflexivity.
Qed.

Theorem add_block_wf : forall p n, wf p -> wf (fst (add_block p n)) /\ size (fst (add_block p n)) = S (size p) /\ snd (add_block p n) = size p.
Proof. intros. split; [apply add_block_ok; auto|]. split; [apply add_block_size|reflexivity]. Qed.

Theorem add_blocks_wf : forall ns p, wf p -> wf (fst (add_blocks p ns)) /\ size (fst (add_blocks p ns)) = size p + length ns /\ snd (add_blocks p ns) = size p.
Proof.
  unfold add_blocks. cbn [fst snd]. induction ns as [|n ns IH]; intros p W; simpl.
  - split; [auto|]. split; [lia|reflexivity].
  - destruct (add_block_wf p n W) as (W1 & S1 & _). destruct (IH (fst (add_block p n)) W1) as (W2 & S2 & _).
    split; [exact W2|]. split; [|reflexivity]. simpl in S2. rewrite S2. simpl in S1. rewrite S1. lia.
Qed.

(** The operations do nothing when profiling is disabled. *)
Theorem disabled_does_nothing : forall p r os, enabled p = false ->
  existsb (fun o => match o with AddBlock _ => true | _ => false end) os = false ->
  new_thread p r = Some (p, None) /\ run p None os = Some (p, None).
Proof.
  intros p r os E N. split; [unfold new_thread; rewrite E; reflexivity|].
  induction os as [|o os IH]; simpl in *; auto. apply orb_false_elim in N. destruct N.
  destruct o; [discriminate| | | |]; simpl; auto.
Qed.

(** ** C24: after a balanced history the call stack and the sample stack are as before. *)

(** What is on the call stack, the innermost call first. *)
Definition call_stack (th : thread) : list entry :=
  rev (concat (map ck_data (firstn (cur th) (chunks th))) ++
       match nth_error (chunks th) (cur th) with Some c => firstn (S (ck_top c)) (ck_data c) | None => [] end).

Lemma rep_call_stack : forall th es, rep_raw th es -> call_stack th = es.
Proof.
  intros th es (pre & c & post & E1 & E2 & F & T & L & SP & LO & R).
  unfold call_stack. rewrite E1, E2, nth_app, firstn_app, Nat.sub_diag, firstn_all. rewrite firstn_O, List.app_nil_r.
  rewrite <- R. apply rev_involutive.
Qed.

(** Histories that leave what they enter and replace only what they entered; depth is the
    number of calls entered so far. *)
Fixpoint balanced (depth : nat) (os : list op) : bool :=
  match os with
  | [] => Nat.eqb depth 0
  | Enter _ :: r => balanced (S depth) r
  | Exit :: r => match depth with O => false | S d => balanced d r end
  | Replace _ :: r => negb (Nat.eqb depth 0) && balanced depth r
  | _ :: r => balanced depth r
  end.

Definition exits (l : list call) : nat := fold_right (fun c n => snd c + n) 0 l.

Lemma balanced_ok : forall os p th st up l0 s0 su, inv p th (up ++ l0) st -> st <> [] ->
  allowed (size p) (length st - 1) os = true -> balanced (length up) os = true ->
  samples th = s0 ++ su -> exits up = length su ->
  exists q th' st', run p (Some th) os = Some (q, Some th') /\ inv q th' l0 st' /\ samples th' = s0.
Proof.
  induction os as [|o os IH]; intros p th st up l0 s0 su I NE AL B SM EX.
  - cbn [run balanced] in *. apply Nat.eqb_eq in B. destruct up; [|discriminate]. simpl in EX.
    destruct su; [|discriminate]. rewrite List.app_nil_r in SM. exists p, th, st. auto.
  - destruct (step_ok p th (up ++ l0) st o os I NE AL) as (p1 & th1 & l1 & E1 & _ & _ & I1 & NE1 & _ & AL1 & X).
    cbn [run]. rewrite E1. cbn [bind fst snd].
    destruct o as [nm|b|b| |t]; cbn [balanced] in B.
    + destruct X as [X1 X2]. subst l1. apply (IH p1 th1 (after st (AddBlock nm)) up l0 s0 su); auto. congruence.
    + destruct X as (ext & X1 & X2). subst l1. apply (IH p1 th1 (after st (Enter b)) ((b, length ext) :: up) l0 s0 (su ++ ext)); auto.
      * rewrite X1, SM, app_assoc. auto.
      * simpl. rewrite EX, app_length. lia.
    + apply andb_prop in B. destruct B as [NU B]. destruct up as [|c up]; [discriminate|].
      destruct X as (ext & X1 & X2). cbn [app hd tl] in X2. subst l1.
      apply (IH p1 th1 (after st (Replace b)) ((b, length ext + snd c) :: up) l0 s0 (su ++ ext)); auto.
      * rewrite X1, SM, app_assoc. auto.
      * simpl in *. rewrite app_length. lia.
    + destruct up as [|c up]; [discriminate|]. cbn [length] in B. destruct X as [X1 X2]. cbn [app hd tl] in X1, X2. subst l1.
      simpl in EX.
      apply (IH p1 th1 (after st Exit) up l0 s0 (firstn (length su - snd c) su)); auto.
      * rewrite X1, SM, app_length, firstn_app.
        replace (length s0 + length su - snd c - length s0) with (length su - snd c) by lia.
        rewrite (firstn_all2 s0) by lia. auto.
      * rewrite firstn_length. lia.
    + destruct X as [X1 X2]. subst l1. apply (IH p1 th1 (after st (Sample t)) up l0 s0 su); auto. congruence.
Qed.

(** A history [before], then a balanced one: the call stack, the sample stack and the sample
    sets are what they were, and no chunk of the call stack is lost. *)
Theorem balanced_restores : forall p r before os, wf p -> enabled p = true ->
  allowed (size p) 0 (before ++ os) = true -> balanced 0 os = true ->
  exists p0 th0 p1 th1 p2 th2,
    new_thread p r = Some (p0, Some th0) /\ run p0 (Some th0) before = Some (p1, Some th1) /\
    run p1 (Some th1) os = Some (p2, Some th2) /\
    call_stack th2 = call_stack th1 /\ samples th2 = samples th1 /\
    (forall a v1 v2, nth_error (sset th1) a = Some v1 -> nth_error (sset th2) a = Some v2 -> ev_xs v2 = ev_xs v1) /\
    free_thread (Some th2) = length (chunks th2) /\ lost th2 = 0.
Proof.
  intros p r before os W EN AL B.
  destruct (new_thread_ok p r W EN) as (p0 & th0 & E0 & SS & I0 & _).
  assert (SPLIT : forall os1 n d, allowed n d (os1 ++ os) = true ->
            allowed n d os1 = true /\ forall st, length st = S d -> allowed (n + added os1) (length (fold_left after os1 st) - 1) os = true).
  { induction os1 as [|o os1 IH]; intros n d H.
    - split; auto. intros st L. simpl. rewrite L, Nat.add_0_r. simpl. rewrite Nat.sub_0_r. auto.
    - destruct o as [nm|b|b| |t]; simpl in H |- *.
      + apply IH in H. destruct H as [H1 H2]. split; auto. intros st L. rewrite <- Nat.add_succ_comm. apply H2. destruct st; auto.
      + apply andb_prop in H. destruct H as [H H']. rewrite H. apply IH in H'. destruct H' as [H1 H2]. split; auto.
        intros st L. apply H2. destruct st as [|[a es] st]; simpl in *; lia.
      + apply andb_prop in H. destruct H as [H H']. rewrite H. apply IH in H'. destruct H' as [H1 H2]. split; auto.
        intros st L. apply H2. destruct st as [|[a es] st]; simpl in *; lia.
      + destruct d as [|d]; [discriminate|]. apply IH in H. destruct H as [H1 H2]. split; auto.
        intros st L. apply H2. destruct st as [|[a es] st]; simpl in *; lia.
      + apply IH in H. destruct H as [H1 H2]. split; [auto|]. intros st L. apply H2. destruct st; auto. }
  destruct (SPLIT before _ _ AL) as [AL1 AL2].
  destruct (run_ok before p0 th0 [(0, 0)] start I0) as (p1 & th1 & l1 & E1 & SZ1 & _ & I1 & _).
  { discriminate. }
  { rewrite (ss_size _ _ SS). exact AL1. }
  specialize (AL2 start eq_refl). rewrite <- (ss_size _ _ SS), <- SZ1 in AL2.
  assert (NE : fold_left after before start <> []).
  { intro Z. rewrite Z in I1. pose proof (i_rep _ _ _ _ I1) as R. pose proof (i_aligned _ _ _ _ I1) as A.
    inversion A; subst. destruct R as (pre & c & post & _ & _ & _ & T & L & _ & _ & R). simpl in R.
    symmetry in R. apply app_eq_nil in R. destruct R as [_ R]. destruct (ck_data c); [simpl in L; lia|discriminate]. }
  destruct (balanced_ok os p1 th1 (fold_left after before start) [] l1 (samples th1) [] I1 NE AL2 B)
    as (p2 & th2 & st' & E2 & I2 & SM); [rewrite List.app_nil_r; auto|auto|].
  exists p0, th0, p1, th1, p2, th2. split; [auto|]. split; [auto|]. split; [auto|].
  pose proof (i_rep _ _ _ _ I1) as R1. pose proof (i_rep _ _ _ _ I2) as R2.
  split; [rewrite (rep_call_stack _ _ R1), (rep_call_stack _ _ R2); auto|].
  split; [auto|]. split.
  - intros a v1 v2 N1 N2. destruct (i_mirror _ _ _ _ I1) as [M1 _]. destruct (i_mirror _ _ _ _ I2) as [M2 _].
    destruct (M1 _ _ N1) as [-> _]. destruct (M2 _ _ N2) as [-> _]. rewrite SM. auto.
  - eapply free_thread_all; eauto.
Qed.

(** ** C25: the records of a block are a finite map, kept sorted by callee. *)
Theorem lookup_is_map : forall p a b, wf p -> a < size p -> b < size p ->
  exists q x d, get_call_data p a b = Some (q, x) /\ nth_error (cds q) x = Some d /\ cd_id d = b /\
    call_of q a b = Some d /\
    (call_of p a b = Some d \/ call_of p a b = None /\ d = CD b 0 0) /\
    (forall a' b', (a', b') <> (a, b) -> call_of q a' b' = call_of p a' b') /\
    (forall c, self_of q c = self_of p c /\ count_of q c = count_of p c /\ time_of q c = time_of p c) /\
    (forall a', StronglySorted lt (map cd_id (records q a'))) /\ wf q.
Proof.
  intros p a b W LA LB.
  destruct (get_call_data_ok p a b W LA LB) as (q & x & d & E & Wq & SZ & EN & D & J & ID & OLD & (N1 & N2 & N3) & CO & GR & _).
  exists q, x, d. split; [auto|]. split; [auto|]. split; [auto|]. split.
  { rewrite CO. assert (eqp (a, b) (a, b) = true) by (apply eqp_true; auto). rewrite H. auto. }
  split; [auto|]. split.
  { intros a' b' NE. rewrite CO. destruct (eqp (a', b') (a, b)) eqn:Q; auto. apply eqp_true in Q. contradiction. }
  split; [auto|]. split; [|auto].
  intro a'. rewrite records_callees. pose proof (wf_sorted _ Wq a') as St.
  assert (V : forall y, In y (callees q a') -> exists f, nth_error (cds q) y = Some f).
  { intros y Y. destruct (wf_in _ Wq _ _ Y) as (f & F & _). eauto. }
  assert (IM : map cd_id (flat_map (fun i => match nth_error (cds q) i with Some d0 => [d0] | None => [] end) (callees q a')) = map (idof q) (callees q a')).
  { clear St. induction (callees q a') as [|y l IHl]; auto. simpl.
    destruct (V y (or_introl eq_refl)) as (f & F). unfold idof at 1. rewrite F. simpl. f_equal. apply IHl. intros; apply V; simpl; auto. }
  rewrite IM. clear IM V. induction St; simpl; constructor; auto.
  rewrite Forall_forall in *. intros n N. apply in_map_iff in N. destruct N as (y & <- & N). auto.
Qed.

(** ** Random samples (C23). *)
Definition gaps (rs : list Z) : Z := fold_right (fun r n => (r mod 2048 + n)%Z) 0%Z rs.

Lemma i32_id : forall x, (- 2 ^ 31 <= x < 2 ^ 31)%Z -> i32 x = x.
Proof. intros. unfold i32. rewrite Z.mod_small; lia. Qed.

Lemma random_loop_ok : forall rs p th tt p' th' rs', (- 2 ^ 31 <= tt <= 2047)%Z -> random_loop p th tt rs = Some (p', th', rs') ->
  exists used, rs = used ++ rs' /\ run p (Some th) (repeat (Sample 1) (length used)) = Some (p', Some th) /\
    (0 < ttrs th' <= 2047)%Z /\ ttrs th' = (tt + gaps used)%Z /\ th' = with_ttrs th (ttrs th').
Proof.
  induction rs as [|r rs IH]; intros p th tt p' th' rs' L H; cbn [random_loop] in H; destruct (Z.leb_spec tt 0); try discriminate.
  - inversion H; subst. exists []. simpl. repeat split; auto; lia.
  - destruct (sample p th 1) as [p1|] eqn:E; [|discriminate]. cbn [bind] in H.
    pose proof (Z.mod_pos_bound r 2048 ltac:(lia)) as MB.
    rewrite i32_id in H by lia. apply IH in H; [|lia].
    destruct H as (used & -> & R & B & T & W). exists (r :: used). split; [reflexivity|]. split.
    + cbn [length repeat run step]. rewrite E. cbn [bind fst snd]. exact R.
    + cbn [gaps fold_right]. fold (gaps used). repeat split; auto; lia.
  - inversion H; subst. exists []. simpl. repeat split; auto; lia.
Qed.

(** Random sampling of an amount takes a number of samples of time 1, such that the amounts
    and the gaps drawn account for each other exactly. *)
Theorem random_samples_account : forall p th count rs p' th' rs',
  (- 2047 <= ttrs th <= 2047)%Z -> (0 <= count < 2 ^ 31 - 2048)%Z ->
  random_sample p th count rs = Some (p', th', rs') ->
  exists used, rs = used ++ rs' /\
    run p (Some th) (repeat (Sample 1) (length used)) = Some (p', Some th) /\
    (0 < ttrs th' <= 2047)%Z /\ (count = ttrs th + gaps used - ttrs th')%Z /\ th' = with_ttrs th (ttrs th').
Proof.
  intros p th count rs p' th' rs' L C H. unfold random_sample in H.
  assert (E : i32 (w64 (ttrs th - count)) = (ttrs th - count)%Z).
  { unfold i32, w64. set (x := (ttrs th - count)%Z) in *. assert (B : (- 2 ^ 31 <= x < 2 ^ 31)%Z) by (unfold x; lia). clearbody x.
    destruct (Z.leb_spec 0 x).
    - rewrite (Z.mod_small x) by lia. rewrite Z.mod_small by lia. lia.
    - replace (x mod 2 ^ 64)%Z with (x + 2 ^ 64)%Z.
      2:{ symmetry. rewrite <- (Z_mod_plus_full x 1). rewrite Z.mod_small; lia. }
      replace (x + 2 ^ 64 + 2 ^ 31)%Z with (x + 2 ^ 31 + 2 ^ 32 * 2 ^ 32)%Z by lia.
      rewrite Z_mod_plus_full, Z.mod_small by lia. lia. }
  rewrite E in H. apply random_loop_ok in H; [|lia]. destruct H as (used & A & B & D & F & G).
  exists used. repeat split; auto; lia.
Qed.

Lemma random_loop_ttrs : forall rs p th t tt, random_loop p (with_ttrs th t) tt rs = random_loop p th tt rs.
Proof.
  induction rs as [|r rs IH]; intros; cbn [random_loop]; destruct (tt <=? 0)%Z; auto.
  change (sample p (with_ttrs th t) 1) with (sample p th 1). destruct (sample p th 1); cbn [bind]; auto.
Qed.

(** How the amount is divided over calls makes no difference. *)
Theorem random_sample_divides : forall p th c1 c2 rs p1 th1 rs1,
  (- 2047 <= ttrs th <= 2047)%Z -> (0 <= c1)%Z -> (0 <= c2)%Z -> (c1 + c2 < 2 ^ 31 - 2048)%Z ->
  random_sample p th c1 rs = Some (p1, th1, rs1) ->
  random_sample p1 th1 c2 rs1 = random_sample p th (c1 + c2) rs.
Proof.
  assert (CONV : forall x, (- 2 ^ 31 <= x < 2 ^ 31)%Z -> i32 (w64 x) = x).
  { intros x B. unfold i32, w64. destruct (Z.leb_spec 0 x).
    - rewrite (Z.mod_small x) by lia. rewrite Z.mod_small by lia. lia.
    - replace (x mod 2 ^ 64)%Z with (x + 2 ^ 64)%Z.
      2:{ symmetry. rewrite <- (Z_mod_plus_full x 1). rewrite Z.mod_small; lia. }
      replace (x + 2 ^ 64 + 2 ^ 31)%Z with (x + 2 ^ 31 + 2 ^ 32 * 2 ^ 32)%Z by lia.
      rewrite Z_mod_plus_full, Z.mod_small by lia. lia. }
  assert (LOOP : forall rs p th tt c p1 th1 rs1, (- 2 ^ 31 <= tt - c)%Z -> (0 <= c)%Z -> (tt <= 2047)%Z ->
    random_loop p th tt rs = Some (p1, th1, rs1) -> random_loop p1 th1 (ttrs th1 - c) rs1 = random_loop p th (tt - c) rs).
  { induction rs as [|r rs IH]; intros p th tt c p1 th1 rs1 L C U H; cbn [random_loop] in H; destruct (Z.leb_spec tt 0); try discriminate.
    - inversion H; subst. rewrite random_loop_ttrs. reflexivity.
    - destruct (sample p th 1) as [p2|] eqn:E; [|discriminate]. cbn [bind] in H.
      pose proof (Z.mod_pos_bound r 2048 ltac:(lia)) as MB. rewrite i32_id in H by lia.
      apply (IH _ _ _ c) in H; try lia. rewrite H. cbn [random_loop].
      destruct (Z.leb_spec (tt - c) 0); [|lia]. rewrite E. cbn [bind]. rewrite i32_id by lia. f_equal. lia.
    - inversion H; subst. rewrite random_loop_ttrs. reflexivity. }
  intros p th c1 c2 rs p1 th1 rs1 L C1 C2 C H.
  pose proof (random_samples_account p th c1 rs p1 th1 rs1 L ltac:(lia) H) as (used & _ & _ & B & _).
  unfold random_sample in *. rewrite CONV in H by lia. rewrite !CONV by lia.
  rewrite (LOOP rs p th (ttrs th - c1)%Z c2 p1 th1 rs1); auto; try lia. f_equal. lia.
Qed.

(** ** Examples.  Two functions that call each other, one tail call, samples in between: block
    1 enters 2, 2 enters 1, 1 is replaced by 3, then everything is left. *)
Definition example_history : list op :=
  [AddBlock 1; AddBlock 2; AddBlock 3; Enter 1; Sample 1; Enter 2; Sample 10; Enter 1; Sample 100; Replace 3; Sample 1000;
   Exit; Sample 10000; Exit; Exit; Sample 100000].

Example example_allowed : wf (new_profile true) /\ allowed (size (new_profile true)) 0 example_history = true /\
  existsb enters_root example_history = false.
Proof. split; [apply new_profile_wf|]. split; vm_compute; reflexivity. Qed.

(** While 3 is running in place of 1, both calls of 1 are still charged, but 1 only once. *)
Example example_profile : exists p1 th1 q th,
  new_thread (new_profile true) 7 = Some (p1, th1) /\ run p1 th1 example_history = Some (q, th) /\
  map (self_of q) [0; 1; 2; 3] = [100000; 101; 10010; 1000]%Z /\
  map (time_of q) [0; 1; 2; 3] = [111111; 11111; 11110; 1000]%Z /\
  map (count_of q) [0; 1; 2; 3] = [1; 2; 1; 1]%Z /\
  call_time_of q 0 1 = 11111%Z /\ call_time_of q 1 2 = 11110%Z /\ call_time_of q 2 1 = 1100%Z /\ call_time_of q 1 3 = 1000%Z /\
  call_of q 0 2 = None.
Proof.
  do 4 eexists. split; [vm_compute; reflexivity|]. split; [vm_compute; reflexivity|]. repeat split; vm_compute; reflexivity.
Qed.

(** Thirty calls deep, across two chunk boundaries, with tail calls. *)
Definition deep (n : nat) : list op := flat_map (fun i => [Enter 1; Replace 2; Sample 1]) (seq 0 n) ++ repeat Exit n.

Example deep_balanced : balanced 0 (deep 30) = true /\
  allowed (size (fst (add_blocks (new_profile true) [1; 2]))) 0 ([Enter 1; Enter 1] ++ deep 30) = true.
Proof. split; vm_compute; reflexivity. Qed.

Example random_example : exists p1 th1 p2 th2,
  new_thread (new_profile true) 5000 = Some (p1, Some th1) /\
  random_sample p1 th1 3000 [1000; 2048; 2047; 2047]%Z = Some (p2, th2, [2047]%Z) /\ ttrs th1 = 904%Z /\ ttrs th2 = 951%Z /\ self_of p2 0 = 3%Z.
Proof.
  do 4 eexists. split; [vm_compute; reflexivity|]. split; [vm_compute; reflexivity|]. repeat split; vm_compute; reflexivity.
Qed.
