(** * The profiler records exactly what happened (C23-C25). *)
From Coq Require Import ZArith List Bool Lia Sorting.Sorted.
From Verif Require Import ProfileModel ProfileSpec ProfileStack.
Import ListNotations.
Local Open Scope list_scope.

Definition callees (p : profile) (a : nat) : list nat :=
  match nth_error (blocks p) a with Some b => bp_callees b | None => [] end.
Definition idof (p : profile) (x : nat) : nat :=
  match nth_error (cds p) x with Some d => cd_id d | None => 0 end.

Definition in_range (z : Z) : Prop := (0 <= z < 2 ^ 64)%Z.
Definition block_ok (b : blockp) : Prop := in_range (bp_self b) /\ in_range (bp_count b) /\ in_range (bp_time b).
Definition call_ok (d : calldata) : Prop := in_range (cd_count d) /\ in_range (cd_time d).

Lemma w64_range : forall z, in_range (w64 z).
Proof. intros. unfold in_range, w64. apply Z.mod_pos_bound. lia. Qed.
Lemma w64_id : forall z, in_range z -> w64 z = z.
Proof. intros. unfold w64. apply Z.mod_small. exact H. Qed.
Lemma w64_add : forall x y, w64 (w64 x + y) = w64 (x + y).
Proof. intros. unfold w64. apply Zplus_mod_idemp_l. Qed.

(** A profile whose records are sorted, distinct and about blocks it has. *)
Record wf (p : profile) : Prop := WF {
  wf_in : forall a x, In x (callees p a) -> exists d, nth_error (cds p) x = Some d /\ cd_id d < size p;
  wf_sorted : forall a, StronglySorted (fun x y => idof p x < idof p y) (callees p a);
  wf_owner : forall a a' x, In x (callees p a) -> In x (callees p a') -> a = a';
  wf_blocks : Forall block_ok (blocks p);
  wf_calls : Forall call_ok (cds p);
  wf_root : 0 < size p }.

Lemma sorted_ids_unique : forall p l x y, StronglySorted (fun x y => idof p x < idof p y) l ->
  In x l -> In y l -> idof p x = idof p y -> x = y.
Proof.
  induction 1; simpl; intros; [contradiction|].
  rewrite Forall_forall in H0.
  destruct H1 as [->|H1], H2 as [->|H2]; auto.
  - specialize (H0 _ H2). lia.
  - specialize (H0 _ H1). lia.
Qed.

Lemma records_callees : forall p a, records p a =
  flat_map (fun i => match nth_error (cds p) i with Some d => [d] | None => [] end) (callees p a).
Proof. intros. unfold records, callees. destruct (nth_error (blocks p) a); reflexivity. Qed.

Lemma call_of_iff : forall p a b d, wf p ->
  (call_of p a b = Some d <-> exists x, In x (callees p a) /\ nth_error (cds p) x = Some d /\ cd_id d = b).
Proof.
  intros p a b d W. unfold call_of. rewrite records_callees. split.
  - intro H. apply find_some in H. destruct H as [H E]. apply in_flat_map in H. destruct H as (x & H & I).
    destruct (nth_error (cds p) x) eqn:N; [|contradiction]. destruct I as [->|[]].
    exists x. apply Nat.eqb_eq in E. auto.
  - intros (x & I & N & E).
    destruct (find _ _) eqn:F.
    + apply find_some in F. destruct F as [F E']. apply in_flat_map in F. destruct F as (y & J & K).
      destruct (nth_error (cds p) y) eqn:M; [|contradiction]. destruct K as [->|[]].
      apply Nat.eqb_eq in E'. assert (x = y).
      { eapply sorted_ids_unique; [apply (wf_sorted _ W a) | auto | auto |].
        unfold idof. rewrite N, M. congruence. }
      subst y. congruence.
    + exfalso. assert (Z : (fun d0 : calldata => cd_id d0 =? b) d = false).
      { eapply (find_none _ _ F). apply in_flat_map. exists x. rewrite N. simpl; auto. }
      simpl in Z. apply Nat.eqb_neq in Z. auto.
Qed.

Lemma option_ext : forall A (x y : option A), (forall d, x = Some d <-> y = Some d) -> x = y.
Proof.
  intros A x y H. destruct x.
  - symmetry. apply H. reflexivity.
  - destruct y; auto. apply (proj2 (H a)). reflexivity.
Qed.

(** ** Changing numbers does not change which records there are. *)
Record same_shape (p q : profile) : Prop := SS {
  ss_size : size q = size p;
  ss_callees : forall a, callees q a = callees p a;
  ss_id : forall x, idof q x = idof p x;
  ss_len : length (cds q) = length (cds p);
  ss_enabled : enabled q = enabled p }.

Lemma same_shape_refl : forall p, same_shape p p.
Proof. intros; constructor; auto. Qed.
Lemma same_shape_trans : forall p q r, same_shape p q -> same_shape q r -> same_shape p r.
Proof. intros p q r [] []; constructor; intros; congruence. Qed.

Lemma idof_some : forall p x, x < length (cds p) -> exists d, nth_error (cds p) x = Some d /\ cd_id d = idof p x.
Proof.
  intros. unfold idof. destruct (nth_error (cds p) x) eqn:E.
  - eauto.
  - apply nth_error_None in E. lia.
Qed.

Lemma wf_same_shape : forall p q, wf p -> same_shape p q -> Forall block_ok (blocks q) -> Forall call_ok (cds q) -> wf q.
Proof.
  intros p q W [S1 S2 S3 S4 _] B C. constructor; auto.
  - intros a x I. rewrite S2 in I. destruct (wf_in _ W _ _ I) as (d & N & L).
    destruct (idof_some q x) as (d' & N' & E).
    { rewrite S4. eapply nth_some_lt; eauto. }
    exists d'. split; auto. rewrite S1, E, S3. unfold idof. rewrite N. auto.
  - intro a. rewrite S2. specialize (wf_sorted _ W a). generalize (callees p a).
    induction 1; constructor; auto. rewrite Forall_forall in *. intros. rewrite !S3. auto.
  - intros a a' x I I'. rewrite S2 in I, I'. eapply wf_owner; eauto.
  - rewrite S1. apply W.
Qed.

Lemma Forall_upd : forall A (P : A -> Prop) l i x, Forall P l -> P x -> Forall P (upd l i x).
Proof. induction l; destruct i; simpl; intros; auto; inversion H; subst; constructor; auto. Qed.

(** Changing the numbers of a block. *)
Definition upd_block (p : profile) (i : nat) (b' : blockp) : profile := PR (upd (blocks p) i b') (cds p) (enabled p).

Lemma upd_block_shape : forall p i b b', nth_error (blocks p) i = Some b -> bp_callees b' = bp_callees b ->
  same_shape p (upd_block p i b').
Proof.
  intros. constructor; auto.
  - unfold size, upd_block; simpl. apply upd_length.
  - intro a. unfold callees, upd_block; simpl. destruct (Nat.eq_dec i a).
    + subst. rewrite nth_upd_same by (eapply nth_some_lt; eauto). rewrite H. auto.
    + rewrite nth_upd_other by auto. reflexivity.
Qed.

Lemma upd_block_nth : forall p i b b' j, nth_error (blocks p) i = Some b ->
  nth_error (blocks (upd_block p i b')) j = if Nat.eqb i j then Some b' else nth_error (blocks p) j.
Proof.
  intros. unfold upd_block; simpl. destruct (Nat.eqb_spec i j).
  - subst. apply nth_upd_same. eapply nth_some_lt; eauto.
  - apply nth_upd_other; auto.
Qed.

Lemma call_of_cds : forall p q a b, cds q = cds p -> (forall a, callees q a = callees p a) -> call_of q a b = call_of p a b.
Proof. intros. unfold call_of. rewrite !records_callees, H, H0. reflexivity. Qed.

Lemma upd_block_wf : forall p i b b', wf p -> nth_error (blocks p) i = Some b -> bp_callees b' = bp_callees b ->
  block_ok b' -> wf (upd_block p i b').
Proof.
  intros. eapply wf_same_shape; eauto using upd_block_shape.
  - simpl. apply Forall_upd; auto. apply H.
  - simpl. apply H.
Qed.

Lemma upd_block_call : forall p i b b' a c, nth_error (blocks p) i = Some b -> bp_callees b' = bp_callees b ->
  call_of (upd_block p i b') a c = call_of p a c.
Proof. intros. apply call_of_cds; auto. intros. apply ss_callees. eapply upd_block_shape; eauto. Qed.

Lemma nth_block_ok : forall p i b, wf p -> nth_error (blocks p) i = Some b -> block_ok b.
Proof. intros. pose proof (wf_blocks _ H) as F. rewrite Forall_forall in F. apply F. eapply nth_error_In; eauto. Qed.
Lemma nth_call_ok : forall p i b, wf p -> nth_error (cds p) i = Some b -> call_ok b.
Proof. intros. pose proof (wf_calls _ H) as F. rewrite Forall_forall in F. apply F. eapply nth_error_In; eauto. Qed.

Lemma nth_lt : forall A (l : list A) i, i < length l -> exists x, nth_error l i = Some x.
Proof. intros. destruct (nth_error l i) eqn:E; eauto. apply nth_error_None in E. lia. Qed.

(** Numbers that are the same. *)
Definition same_numbers (p q : profile) : Prop :=
  (forall b, self_of q b = self_of p b) /\ (forall b, count_of q b = count_of p b) /\ (forall b, time_of q b = time_of p b).

Lemma inc_block_ok : forall p b, wf p -> b < size p ->
  exists q, inc_block p b = Some q /\ wf q /\ same_shape p q /\
    (forall c, self_of q c = self_of p c) /\ (forall c, time_of q c = time_of p c) /\
    (forall c, count_of q c = w64 (count_of p c + if_ (Nat.eqb c b) 1)) /\
    (forall a c, call_of q a c = call_of p a c) /\ cds q = cds p.
Proof.
  intros p b W L. destruct (nth_lt _ _ _ L) as (x & N). pose proof (nth_block_ok _ _ _ W N) as (O1 & O2 & O3).
  unfold inc_block. rewrite N. simpl. eexists; split; [reflexivity|].
  fold (upd_block p b (BP (bp_name x) (bp_self x) (w64 (bp_count x + 1)) (bp_time x) (bp_callees x))).
  set (b' := BP _ _ _ _ _).
  split; [eapply upd_block_wf; eauto; split; [|split]; simpl; auto using w64_range|].
  split; [eapply upd_block_shape; eauto|].
  repeat split.
  - intro c. unfold self_of. rewrite (upd_block_nth _ _ _ b' c N). destruct (Nat.eqb_spec b c); subst; auto. rewrite N; auto.
  - intro c. unfold time_of. rewrite (upd_block_nth _ _ _ b' c N). destruct (Nat.eqb_spec b c); subst; auto. rewrite N; auto.
  - intro c. unfold count_of. rewrite (upd_block_nth _ _ _ b' c N). rewrite (Nat.eqb_sym c b).
    destruct (Nat.eqb_spec b c); subst; unfold if_.
    + rewrite N; auto.
    + rewrite Z.add_0_r. destruct (nth_error (blocks p) c) eqn:E; [|reflexivity].
      rewrite w64_id; auto. apply (nth_block_ok _ _ _ W E).
  - intros. eapply upd_block_call; eauto.
Qed.

Lemma charge_self_ok : forall p b t, wf p -> b < size p ->
  exists q, charge_self p b t = Some q /\ wf q /\ same_shape p q /\
    (forall c, self_of q c = w64 (self_of p c + if_ (Nat.eqb b c) t)) /\ (forall c, time_of q c = time_of p c) /\
    (forall c, count_of q c = count_of p c) /\
    (forall a c, call_of q a c = call_of p a c) /\ cds q = cds p.
Proof.
  intros p b t W L. destruct (nth_lt _ _ _ L) as (x & N). pose proof (nth_block_ok _ _ _ W N) as (O1 & O2 & O3).
  unfold charge_self. rewrite N. simpl. eexists; split; [reflexivity|].
  fold (upd_block p b (BP (bp_name x) (w64 (bp_self x + t)) (bp_count x) (bp_time x) (bp_callees x))).
  set (b' := BP _ _ _ _ _).
  split; [eapply upd_block_wf; eauto; split; [|split]; simpl; auto using w64_range|].
  split; [eapply upd_block_shape; eauto|].
  repeat split.
  - intro c. unfold self_of. rewrite (upd_block_nth _ _ _ b' c N).
    destruct (Nat.eqb_spec b c); subst; unfold if_.
    + rewrite N; auto.
    + rewrite Z.add_0_r. destruct (nth_error (blocks p) c) eqn:E; [|reflexivity].
      rewrite w64_id; auto. apply (nth_block_ok _ _ _ W E).
  - intro c. unfold time_of. rewrite (upd_block_nth _ _ _ b' c N). destruct (Nat.eqb_spec b c); subst; auto. rewrite N; auto.
  - intro c. unfold count_of. rewrite (upd_block_nth _ _ _ b' c N). destruct (Nat.eqb_spec b c); subst; auto. rewrite N; auto.
  - intros. eapply upd_block_call; eauto.
Qed.

Lemma charge_block_ok : forall p b t, wf p -> b < size p ->
  exists q, charge_block p b t = Some q /\ wf q /\ same_shape p q /\
    (forall c, time_of q c = w64 (time_of p c + if_ (Nat.eqb b c) t)) /\ (forall c, self_of q c = self_of p c) /\
    (forall c, count_of q c = count_of p c) /\
    (forall a c, call_of q a c = call_of p a c) /\ cds q = cds p.
Proof.
  intros p b t W L. destruct (nth_lt _ _ _ L) as (x & N). pose proof (nth_block_ok _ _ _ W N) as (O1 & O2 & O3).
  unfold charge_block. rewrite N. simpl. eexists; split; [reflexivity|].
  fold (upd_block p b (BP (bp_name x) (bp_self x) (bp_count x) (w64 (bp_time x + t)) (bp_callees x))).
  set (b' := BP _ _ _ _ _).
  split; [eapply upd_block_wf; eauto; split; [|split]; simpl; auto using w64_range|].
  split; [eapply upd_block_shape; eauto|].
  repeat split.
  - intro c. unfold time_of. rewrite (upd_block_nth _ _ _ b' c N).
    destruct (Nat.eqb_spec b c); subst; unfold if_.
    + rewrite N; auto.
    + rewrite Z.add_0_r. destruct (nth_error (blocks p) c) eqn:E; [|reflexivity].
      rewrite w64_id; auto. apply (nth_block_ok _ _ _ W E).
  - intro c. unfold self_of. rewrite (upd_block_nth _ _ _ b' c N). destruct (Nat.eqb_spec b c); subst; auto. rewrite N; auto.
  - intro c. unfold count_of. rewrite (upd_block_nth _ _ _ b' c N). destruct (Nat.eqb_spec b c); subst; auto. rewrite N; auto.
  - intros. eapply upd_block_call; eauto.
Qed.

(** Changing the numbers of a record. *)
Definition upd_call (p : profile) (x : nat) (d' : calldata) : profile := PR (blocks p) (upd (cds p) x d') (enabled p).

Lemma upd_call_nth : forall p x d d' y, nth_error (cds p) x = Some d ->
  nth_error (cds (upd_call p x d')) y = if Nat.eqb x y then Some d' else nth_error (cds p) y.
Proof.
  intros. unfold upd_call; simpl. destruct (Nat.eqb_spec x y).
  - subst. apply nth_upd_same. eapply nth_some_lt; eauto.
  - apply nth_upd_other; auto.
Qed.

Lemma upd_call_shape : forall p x d d', nth_error (cds p) x = Some d -> cd_id d' = cd_id d -> same_shape p (upd_call p x d').
Proof.
  intros. constructor; auto.
  - intro y. unfold idof. rewrite (upd_call_nth _ _ _ d' y H). destruct (Nat.eqb_spec x y); auto. subst. rewrite H. auto.
  - simpl. apply upd_length.
Qed.

Lemma upd_call_ok : forall p a x d d', wf p -> In x (callees p a) -> nth_error (cds p) x = Some d -> cd_id d' = cd_id d ->
  call_ok d' ->
  wf (upd_call p x d') /\ same_numbers p (upd_call p x d') /\
  forall a' b', call_of (upd_call p x d') a' b' = if eqp (a', b') (a, cd_id d) then Some d' else call_of p a' b'.
Proof.
  intros p a x d d' W I N E O.
  assert (W' : wf (upd_call p x d')).
  { eapply wf_same_shape; eauto using upd_call_shape. apply W. simpl. apply Forall_upd; auto. apply W. }
  split; auto. split; [repeat split; reflexivity|].
  intros a' b'. unfold eqp. simpl fst; simpl snd.
  apply option_ext. intro f. rewrite (call_of_iff _ _ _ _ W').
  change (callees (upd_call p x d') a') with (callees p a').
  destruct (Nat.eqb_spec a' a) as [->|NA]; [destruct (Nat.eqb_spec b' (cd_id d)) as [->|NB]|]; cbn [andb].
  - split.
    + intros (y & J & M & Q). rewrite (upd_call_nth _ _ _ d' y N) in M.
      destruct (Nat.eqb_spec x y); auto. exfalso. apply n.
      eapply sorted_ids_unique; [apply (wf_sorted _ W a)|auto|auto|]. unfold idof. rewrite N, M. auto.
    + intro Q; inversion Q; subst. exists x. rewrite (upd_call_nth _ _ _ f x N), Nat.eqb_refl. auto.
  - rewrite (call_of_iff _ _ _ _ W). split; intros (y & J & M & Q); exists y; (split; [auto|]).
    + rewrite (upd_call_nth _ _ _ d' y N) in M. destruct (Nat.eqb_spec x y); auto.
      inversion M; subst. congruence.
    + rewrite (upd_call_nth _ _ _ d' y N). destruct (Nat.eqb_spec x y); auto.
      subst. congruence.
  - rewrite (call_of_iff _ _ _ _ W). split; intros (y & J & M & Q); exists y; (split; [auto|]).
    + rewrite (upd_call_nth _ _ _ d' y N) in M. destruct (Nat.eqb_spec x y); auto.
      subst. exfalso. apply NA. eapply wf_owner; eauto.
    + rewrite (upd_call_nth _ _ _ d' y N). destruct (Nat.eqb_spec x y); auto.
      subst. exfalso. apply NA. eapply wf_owner; eauto.
Qed.

(** ** Looking up call data (C25). *)
Lemma bsearch_ok : forall fuel p xs callee lo hi,
  (forall x, In x xs -> x < length (cds p)) ->
  StronglySorted (fun x y => idof p x < idof p y) xs ->
  lo <= hi -> hi <= length xs -> hi - lo < fuel ->
  (forall i x, nth_error xs i = Some x -> i < lo -> idof p x < callee) ->
  (forall i x, nth_error xs i = Some x -> hi <= i -> callee < idof p x) ->
  (exists x, bsearch fuel p xs callee lo hi = Some (inl x) /\ In x xs /\ idof p x = callee) \/
  (exists k, bsearch fuel p xs callee lo hi = Some (inr k) /\ k <= length xs /\
     (forall i x, nth_error xs i = Some x -> i < k -> idof p x < callee) /\
     (forall i x, nth_error xs i = Some x -> k <= i -> callee < idof p x)).
Proof.
  assert (mono : forall p xs i j x y, StronglySorted (fun x y => idof p x < idof p y) xs -> i < j ->
    nth_error xs i = Some x -> nth_error xs j = Some y -> idof p x < idof p y).
  { intros p xs i j x y St. revert i j. induction St; intros i j L X Y; [destruct i; discriminate|].
    destruct j; [lia|]. destruct i; simpl in X, Y.
    - inversion X; subst. rewrite Forall_forall in H. apply H. eapply nth_error_In; eauto.
    - eapply IHSt; [|eauto|eauto]. lia. }
  induction fuel; intros p xs callee lo hi V St L1 L2 F B1 B2; [lia|].
  cbn [bsearch]. destruct (Nat.ltb_spec lo hi) as [LT|GE].
  2:{ right. exists lo. repeat split; auto; try lia. intros; eapply B2; eauto. lia. }
  cbv zeta. set (mid := Nat.div2 (lo + hi)).
  assert (M : lo <= mid /\ mid < hi).
  { unfold mid. rewrite Nat.div2_div. pose proof (Nat.div_mod (lo + hi) 2).
    pose proof (Nat.mod_upper_bound (lo + hi) 2). lia. }
  destruct (nth_lt _ xs mid) as (x & X); [lia|]. rewrite X. cbn [bind].
  destruct (idof_some p x) as (d & D & ID). { apply V. eapply nth_error_In; eauto. }
  rewrite D. cbn [bind]. rewrite ID.
  destruct (Nat.ltb_spec (idof p x) callee) as [C1|C1]; [|destruct (Nat.eqb_spec (idof p x) callee) as [C2|C2]].
  - apply IHfuel; auto; try lia.
    intros i y Y I. destruct (Nat.eq_dec i mid); [congruence|].
    enough (idof p y < idof p x) by lia. eapply (mono p xs i mid); eauto; lia.
  - left. exists x. repeat split; auto. eapply nth_error_In; eauto.
  - apply IHfuel; auto; try lia.
    intros i y Y I. destruct (Nat.eq_dec i mid). { replace y with x by congruence. lia. }
    enough (idof p x < idof p y) by lia. eapply (mono p xs mid i); eauto; lia.
Qed.

Lemma shift_ok : forall r a data, exists l y, shift (length r) (a ++ r) (length a) data = Some (l, y) /\ l ++ [y] = a ++ data :: r.
Proof.
  induction r as [|t r IH]; intros; cbn [shift length].
  - eexists _, _. split; [reflexivity|]. rewrite List.app_nil_r. auto.
  - rewrite nth_app. cbn [bind]. rewrite upd_app.
    destruct (IH (a ++ [data]) t) as (l & y & E & Q).
    rewrite app_length in E. simpl in E. rewrite Nat.add_1_r in E.
    replace ((a ++ [data]) ++ r) with (a ++ data :: r) in E by (rewrite <- app_assoc; auto).
    exists l, y. split; auto. rewrite Q, <- app_assoc. auto.
Qed.

Lemma sorted_app : forall A (R : A -> A -> Prop) a b, StronglySorted R a -> StronglySorted R b ->
  (forall x y, In x a -> In y b -> R x y) -> StronglySorted R (a ++ b).
Proof.
  induction 1; simpl; intros; auto. constructor; auto.
  apply Forall_app; split; auto. rewrite Forall_forall. auto.
Qed.
Lemma sorted_app_inv : forall A (R : A -> A -> Prop) a b, StronglySorted R (a ++ b) -> StronglySorted R a /\ StronglySorted R b.
Proof.
  induction a; simpl; intros; [split; auto; constructor|].
  inversion H; subst. apply IHa in H2. destruct H2. split; auto. constructor; auto.
  apply Forall_app in H3. tauto.
Qed.
Lemma sorted_weaken : forall A (R Q : A -> A -> Prop) l, (forall x y, In x l -> In y l -> R x y -> Q x y) ->
  StronglySorted R l -> StronglySorted Q l.
Proof.
  intros A R Q l H St. induction St; constructor.
  - apply IHSt. intros; apply H; simpl; auto.
  - rewrite Forall_forall in *. intros. apply H; simpl; auto.
Qed.

(** Looking up a callee gives its record, a new one with zero counts if there was none; no
    other record changes and the records stay sorted. *)
Theorem get_call_data_ok : forall p a b, wf p -> a < size p -> b < size p ->
  exists q x d, get_call_data p a b = Some (q, x) /\ wf q /\ size q = size p /\ enabled q = enabled p /\
    nth_error (cds q) x = Some d /\ In x (callees q a) /\ cd_id d = b /\
    (call_of p a b = Some d \/ call_of p a b = None /\ d = CD b 0 0) /\
    same_numbers p q /\
    (forall a' b', call_of q a' b' = if eqp (a', b') (a, b) then Some d else call_of p a' b') /\
    (forall y a', In y (callees p a') -> In y (callees q a') /\ idof q y = idof p y) /\
    (q = p \/ forall y a', In y (callees p a') -> x <> y).
Proof.
  intros p a b W LA LB. destruct (nth_lt _ _ _ LA) as (bp & N).
  assert (CE : callees p a = bp_callees bp) by (unfold callees; rewrite N; auto).
  assert (V : forall x, In x (bp_callees bp) -> x < length (cds p)).
  { intros x I. rewrite <- CE in I. destruct (wf_in _ W _ _ I) as (d & D & _). eapply nth_some_lt; eauto. }
  assert (St : StronglySorted (fun x y => idof p x < idof p y) (bp_callees bp)) by (rewrite <- CE; apply W).
  unfold get_call_data. rewrite N. cbn [bind]. cbv zeta.
  destruct (bsearch_ok (S (length (bp_callees bp))) p (bp_callees bp) b 0 (length (bp_callees bp)) V St)
    as [(x & E & I & ID) | (k & E & LE & B1 & B2)]; try lia.
  { intros i x X L. assert (nth_error (bp_callees bp) i = None) by (apply nth_error_None; lia). congruence. }
  - rewrite E. cbn [bind]. destruct (idof_some p x (V _ I)) as (d & D & ID').
    exists p, x, d. assert (C : call_of p a b = Some d).
    { apply call_of_iff; auto. exists x. rewrite CE. repeat split; auto. congruence. }
    repeat (split; [solve [auto | congruence | rewrite CE; auto | repeat split; auto]|]).
    split; [|split; auto].
    intros a' b'. unfold eqp. simpl. destruct (Nat.eqb_spec a' a), (Nat.eqb_spec b' b); subst; simpl; auto.
  - rewrite E. cbn [bind].
    assert (NEW : forall y a', In y (callees p a') -> length (cds p) <> y).
    { intros y a' I. destruct (wf_in _ W _ _ I) as (d & D & _). apply nth_some_lt in D. lia. }
    set (pre := firstn k (bp_callees bp)). set (suf := skipn k (bp_callees bp)).
    assert (XS : bp_callees bp = pre ++ suf) by (symmetry; apply firstn_skipn).
    assert (LP : length pre = k) by (apply firstn_length_le; auto).
    assert (LS : length (bp_callees bp) - k = length suf) by (unfold suf; rewrite skipn_length; lia). clearbody pre suf.
    destruct (shift_ok suf pre (length (cds p))) as (l & y & SH & SL).
    rewrite <- XS in SH. rewrite LS, <- LP. rewrite SH. cbn [bind]. rewrite SL.
    set (q := PR _ _ _).
    assert (CQ : forall a', callees q a' = if Nat.eqb a' a then pre ++ length (cds p) :: suf else callees p a').
    { intro a'. unfold callees at 1. simpl. destruct (Nat.eqb_spec a' a).
      - subst. rewrite nth_upd_same by auto. reflexivity.
      - rewrite nth_upd_other by auto. reflexivity. }
    assert (DQ : forall z, z < length (cds p) -> nth_error (cds q) z = nth_error (cds p) z).
    { intros. simpl. apply nth_error_app1; auto. }
    assert (DN : nth_error (cds q) (length (cds p)) = Some (CD b 0 0)).
    { simpl. rewrite nth_error_app2 by lia. rewrite Nat.sub_diag. auto. }
    assert (IQ : forall z, z < length (cds p) -> idof q z = idof p z).
    { intros. unfold idof. rewrite DQ; auto. }
    assert (IN : idof q (length (cds p)) = b) by (unfold idof; rewrite DN; auto).
    assert (INC : forall z, In z (pre ++ length (cds p) :: suf) <-> z = length (cds p) \/ In z (bp_callees bp)).
    { intro z. rewrite XS, !in_app_iff. simpl. intuition. }
    assert (PB : forall z, In z pre -> idof p z < b).
    { intros z I. apply In_nth_error in I. destruct I as (i & I). eapply B1.
      - rewrite XS, nth_error_app1; [eauto|]. eapply nth_some_lt; eauto.
      - rewrite <- LP. eapply nth_some_lt; eauto. }
    assert (SB : forall z, In z suf -> b < idof p z).
    { intros z I. apply In_nth_error in I. destruct I as (i & I). eapply (B2 (k + i)).
      - rewrite XS, nth_error_app2 by lia. rewrite LP. replace (k + i - k) with i by lia. auto.
      - lia. }
    assert (SZ : size q = size p) by (unfold size; simpl; apply upd_length).
    assert (Wq : wf q).
    { constructor.
      - intros a' z I. rewrite CQ in I. destruct (Nat.eqb_spec a' a).
        + apply INC in I. destruct I as [->|I].
          * exists (CD b 0 0). rewrite DN, SZ. auto.
          * pose proof (V _ I). rewrite <- CE in I. destruct (wf_in _ W _ _ I) as (d & D & L).
            exists d. rewrite DQ, SZ; auto.
        + destruct (wf_in _ W _ _ I) as (d & D & L). exists d. rewrite DQ, SZ; auto. eapply nth_some_lt; eauto.
      - intros a'. rewrite CQ. destruct (Nat.eqb_spec a' a).
        + rewrite XS in St. apply sorted_app_inv in St as St'. destruct St' as [S1 S2].
          assert (VP : forall z, In z pre -> z < length (cds p)) by (intros; apply V; rewrite XS; apply in_or_app; auto).
          assert (VS : forall z, In z suf -> z < length (cds p)) by (intros; apply V; rewrite XS; apply in_or_app; auto).
          apply sorted_app.
          * eapply sorted_weaken; [|exact S1]. intros u v Iu Iv. rewrite !IQ; auto.
          * constructor.
            -- eapply sorted_weaken; [|exact S2]. intros u v Iu Iv. rewrite !IQ; auto.
            -- rewrite Forall_forall. intros z I. rewrite IN, IQ; auto.
          * intros u v Iu [<-|Iv].
            -- rewrite IN, IQ; auto.
            -- rewrite !IQ; auto. specialize (PB _ Iu). specialize (SB _ Iv). lia.
        + eapply sorted_weaken; [|apply (wf_sorted _ W a')]. intros u v Iu Iv. rewrite !IQ; auto.
          * destruct (wf_in _ W _ _ Iv) as (d & D & _). eapply nth_some_lt; eauto.
          * destruct (wf_in _ W _ _ Iu) as (d & D & _). eapply nth_some_lt; eauto.
      - assert (ONE : forall a' z, In z (callees q a') -> z = length (cds p) /\ a' = a \/ z <> length (cds p) /\ In z (callees p a')).
        { intros a' z I. rewrite CQ in I. destruct (Nat.eqb_spec a' a).
          - apply INC in I. destruct I as [->|I]; auto. right. rewrite e, CE. split; auto. specialize (V _ I). lia.
          - right. split; auto. intro Z. subst z. eapply NEW; eauto. }
        intros a1 a2 z I1 I2. destruct (ONE _ _ I1) as [[]|[]], (ONE _ _ I2) as [[]|[]]; try congruence.
        eapply wf_owner; eauto.
      - simpl. apply Forall_upd; [apply W|]. exact (nth_block_ok _ _ _ W N).
      - simpl. apply Forall_app; split; [apply W|]. constructor; auto. split; unfold in_range; simpl; lia.
      - rewrite SZ. apply W. }
    assert (NONE : call_of p a b = None).
    { destruct (call_of p a b) eqn:C; auto. apply call_of_iff in C; auto. destruct C as (z & I & D & ID).
      rewrite CE, XS in I. apply in_app_or in I.
      assert (idof p z = b) by (unfold idof; rewrite D; auto).
      destruct I as [I|I]; [specialize (PB _ I)|specialize (SB _ I)]; lia. }
    exists q, (length (cds p)), (CD b 0 0).
    split; [reflexivity|]. split; [auto|]. split; [auto|]. split; [auto|]. split; [auto|].
    split. { rewrite CQ, Nat.eqb_refl. apply INC. auto. }
    split; [auto|]. split; [auto|]. split.
    { assert (NB : forall c, nth_error (blocks q) c = if Nat.eqb a c then Some (with_callees bp (pre ++ length (cds p) :: suf)) else nth_error (blocks p) c).
      { intro c. simpl. destruct (Nat.eqb_spec a c).
        - subst c. apply nth_upd_same. auto.
        - apply nth_upd_other; auto. }
      repeat split; intro c; unfold self_of, count_of, time_of; rewrite NB; destruct (Nat.eqb_spec a c) as [<-|]; auto; rewrite N; auto. }
    split.
    { intros a' b'. unfold eqp. simpl fst; simpl snd. apply option_ext. intro d.
      rewrite (call_of_iff _ _ _ _ Wq). rewrite CQ.
      destruct (Nat.eqb_spec a' a) as [->|NA]; [destruct (Nat.eqb_spec b' b) as [->|NB]|]; cbn [andb].
      - split.
        + intros (z & I & D & ID). apply INC in I. destruct I as [->|I]; [congruence|].
          exfalso. assert (C : call_of p a b = Some d).
          { apply call_of_iff; auto. exists z. rewrite CE. rewrite DQ in D by auto. auto. }
          congruence.
        + intro Q; inversion Q; subst d. exists (length (cds p)). split; [apply INC; auto|auto].
      - rewrite (call_of_iff _ _ _ _ W). rewrite CE. split; intros (z & I & D & ID).
        + apply INC in I. destruct I as [->|I].
          * exfalso. rewrite DN in D. inversion D; subst d; simpl in *. congruence.
          * exists z. rewrite DQ in D by auto. auto.
        + exists z. rewrite DQ by auto. split; auto. apply INC. auto.
      - rewrite (call_of_iff _ _ _ _ W). split; intros (z & I & D & ID); exists z.
        + rewrite DQ in D; auto. destruct (wf_in _ W _ _ I) as (f & G & _). eapply nth_some_lt; eauto.
        + rewrite DQ; auto. eapply nth_some_lt; eauto. }
    split.
    { intros z a' I. destruct (wf_in _ W _ _ I) as (f & G & _). split.
      - rewrite CQ. destruct (Nat.eqb_spec a' a); auto. subst a'. apply INC. rewrite <- CE. auto.
      - apply IQ. eapply nth_some_lt; eauto. }
    right. exact NEW.
Qed.
