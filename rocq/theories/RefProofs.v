(** * Reference values never become cyclic. *)
From Coq Require Import ZArith List Bool Lia.
From Verif Require Import PackModel PackSpec PackProofs.
Import ListNotations.
Local Open Scope Z_scope.

(** Index of the allocated object a word points to. *)
Definition idx (m : mem) (w : Z) : option nat :=
  match lookup m w with Some _ => Some (Z.to_nat (w / 16 - 1)) | None => None end.

Lemma idx_addr m w i : idx m w = Some i <-> (w = addr_of i /\ exists o, nth_error m i = Some o).
Proof.
  unfold idx. split.
  - destruct (lookup m w) as [o|] eqn:E; [|discriminate]. intros H. inversion H; subst.
    destruct (lookup_is_addr _ _ _ E) as (j & -> & Hn).
    assert (Z.to_nat (addr_of j / 16 - 1) = j).
    { unfold addr_of. rewrite Z.mul_comm, Z.div_mul by lia. lia. }
    rewrite H0. eauto.
  - intros (-> & o & Hn). rewrite lookup_addr_of, Hn.
    unfold addr_of. rewrite Z.mul_comm, Z.div_mul by lia. f_equal. lia.
Qed.

(** One dereferencing step between objects. *)
Definition nxt (m : mem) (i : nat) : option nat :=
  match nth_error m i with
  | Some (ORef v) => idx m v
  | _ => None
  end.

Fixpoint iter (m : mem) (n : nat) (i : nat) : option nat :=
  match n with
  | O => Some i
  | S n' => match nxt m i with Some j => iter m n' j | None => None end
  end.

Definition acyclic (m : mem) : Prop := forall n i, iter m (S n) i <> Some i.

(** References point to NULL, packed words or allocated objects. *)
Definition refs_ok (m : mem) : Prop :=
  forall i v, nth_error m i = Some (ORef v) -> v = 0 \/ is_packed v = true \/ exists j, idx m v = Some j.

Lemma iter_add m a : forall b i, iter m (a + b) i = match iter m a i with Some j => iter m b j | None => None end.
Proof.
  induction a as [|a IH]; intros b i; simpl; [reflexivity|]. destruct (nxt m i); auto.
Qed.

Lemma nxt_lt m i j : nxt m i = Some j -> (i < length m)%nat /\ (j < length m)%nat.
Proof.
  unfold nxt. destruct (nth_error m i) as [[]|] eqn:E; try discriminate. intros H.
  apply idx_addr in H. destruct H as (_ & o & Ho). split; apply nth_error_Some; congruence.
Qed.

(** A chain of [n] steps visits [n + 1] distinct objects, so [n < length m]. *)
Lemma acyclic_bound m : acyclic m -> forall n i j, (i < length m)%nat ->
  iter m n i = Some j -> (n < length m)%nat.
Proof.
  intros Hac n i j Hi H.
  assert (Hall: forall k, (k <= n)%nat -> exists x, iter m k i = Some x /\ (x < length m)%nat).
  { intros k Hk. replace n with (k + (n - k))%nat in H by lia. rewrite iter_add in H.
    destruct (iter m k i) as [x|] eqn:Ex; [|discriminate]. exists x. split; auto.
    destruct k as [|k].
    - simpl in Ex. inversion Ex; subst. exact Hi.
    - replace (S k) with (k + 1)%nat in Ex by lia. rewrite iter_add in Ex.
      destruct (iter m k i) as [y|]; [|discriminate]. simpl in Ex.
      destruct (nxt m y) eqn:En; [|discriminate]. inversion Ex; subst.
      apply nxt_lt in En. lia. }
  set (f := fun k => match iter m k i with Some x => x | None => O end).
  assert (Hinj: NoDup (map f (seq 0 (S n)))).
  { apply NoDup_nth with O. intros a b Ha Hb Hab. rewrite map_length, seq_length in *.
    assert (N: forall k, (k < S n)%nat -> nth k (map f (seq 0 (S n))) O = f k).
    { intros k Hk. rewrite (nth_indep _ O (f O)) by (rewrite map_length, seq_length; lia).
      rewrite map_nth, seq_nth by lia. reflexivity. }
    rewrite !N in Hab by lia.
    assert (Key: forall a b, (a < b <= n)%nat -> f a = f b -> False).
    { clear a b Ha Hb Hab. intros a b Hlt E. unfold f in E.
      destruct (Hall a ltac:(lia)) as (x & Ex & _). destruct (Hall b ltac:(lia)) as (y & Ey & _).
      rewrite Ex, Ey in E. subst y.
      replace b with (a + S (b - a - 1))%nat in Ey by lia. rewrite iter_add, Ex in Ey.
      exact (Hac _ _ Ey). }
    destruct (Nat.lt_trichotomy a b) as [Hlt|[?|Hlt]]; auto; exfalso;
      [apply (Key a b) | apply (Key b a)]; auto; lia. }
  assert (Hincl: incl (map f (seq 0 (S n))) (seq 0 (length m))).
  { intros x Hx. apply in_map_iff in Hx. destruct Hx as (k & <- & Hk). apply in_seq in Hk.
    destruct (Hall k ltac:(lia)) as (x & Ex & Hlt). unfold f. rewrite Ex. apply in_seq. lia. }
  pose proof (NoDup_incl_length Hinj Hincl) as L. rewrite map_length, !seq_length in L. lia.
Qed.

(** ** Dereferencing terminates in acyclic memories. *)
Definition valid_word (m : mem) (w : Z) : Prop :=
  w = 0 \/ is_packed w = true \/ exists i, idx m w = Some i.

Lemma strict_loop_total m : refs_ok m -> forall fuel w, valid_word m w ->
  (exists r, strict_loop fuel m w = Some r) \/
  (exists i j, idx m w = Some i /\ iter m fuel i = Some j).
Proof.
  intros Hok. induction fuel as [|fuel IH]; intros w Hw; cbn [strict_loop];
    destruct (is_alloced w) eqn:Ea; eauto;
    (destruct Hw as [->|[Hp|[i Hi]]]; [discriminate| unfold is_alloced in Ea; rewrite Hp in Ea; discriminate |]);
    pose proof Hi as Hi'; apply idx_addr in Hi'; destruct Hi' as (-> & o & Ho);
    rewrite lookup_addr_of, Ho; destruct o as [| |v|]; eauto.
  - right. exists i, i. split; auto.
  - destruct (IH v) as [[r Hr]|(j & k & Hj & Hk)].
    + destruct (Hok _ _ Ho) as [->|[Hp|[j Hj]]]; unfold valid_word; eauto.
    + left. eauto.
    + right. exists i, k. split; auto. simpl. unfold nxt. rewrite Ho, Hj. exact Hk.
Qed.

Lemma idx_lt m w i : idx m w = Some i -> (i < length m)%nat.
Proof. intros H. apply idx_addr in H. destruct H as (_ & o & Ho). apply nth_error_Some. congruence. Qed.

Lemma strict_total m w : refs_ok m -> acyclic m -> valid_word m w -> exists r, strict m w = Some r.
Proof.
  intros Hok Hac Hw. unfold strict. destruct (strict_loop_total m Hok (length m) w Hw) as [H|(i & j & Hi & Hj)]; auto.
  exfalso. pose proof (acyclic_bound m Hac _ _ _ (idx_lt _ _ _ Hi) Hj). lia.
Qed.

Lemma strict_loop_result m : forall fuel w r, strict_loop fuel m w = Some r ->
  is_alloced r = true -> exists o, lookup m r = Some o /\ forall v, o <> ORef v.
Proof.
  induction fuel as [|fuel IH]; intros w r H Ha; cbn [strict_loop] in H;
    (destruct (is_alloced w) eqn:Ea; [|inversion H; subst; congruence]);
    destruct (lookup m w) as [o|] eqn:El; try discriminate; destruct o as [| |v|]; try discriminate;
    try (inversion H; subst; eexists; split; [eassumption|discriminate]).
  eapply IH; eauto.
Qed.

(** ** The unwrap loop *)
(** [terminal m w]: where the unwrap loop stops. *)
Definition terminal (m : mem) (w : Z) : Prop :=
  is_packed w = true \/ (exists o, lookup m w = Some o /\ (forall v, o = ORef v -> v = 0)).

Lemma unwrap_loop_total m : refs_ok m -> forall fuel w,
  is_packed w = true \/ (exists i, idx m w = Some i) ->
  (exists r, unwrap_loop fuel m w = Some r) \/
  (exists i j, idx m w = Some i /\ iter m fuel i = Some j).
Proof.
  intros Hok. induction fuel as [|fuel IH]; intros w Hw; cbn [unwrap_loop];
    destruct (is_packed w) eqn:Ep; eauto;
    (destruct Hw as [Hp|[i Hi]]; [congruence|]);
    pose proof Hi as Hi'; apply idx_addr in Hi'; destruct Hi' as (-> & o & Ho);
    rewrite lookup_addr_of, Ho; destruct o as [| |v|]; eauto;
    destruct (Z.eqb_spec v 0) as [->|Hv]; eauto.
  - right. exists i, i. auto.
  - destruct (Hok _ _ Ho) as [?|Hv']; [congruence|].
    destruct (IH v Hv') as [[r Hr]|(j & k & Hj & Hk)]; [left; eauto|].
    right. exists i, k. split; auto. simpl. unfold nxt. rewrite Ho, Hj. exact Hk.
Qed.

Lemma unwrap_loop_terminal m : forall fuel w r, unwrap_loop fuel m w = Some r -> terminal m r.
Proof.
  induction fuel as [|fuel IH]; intros w r H; cbn [unwrap_loop] in H;
    (destruct (is_packed w) eqn:Ep; [inversion H; subst; left; auto|]);
    (destruct (lookup m w) as [o|] eqn:El; [|discriminate]);
    destruct o as [| |v|];
    try (inversion H; subst; right; eexists; split; [eassumption|]; intros; discriminate);
    (destruct (Z.eqb_spec v 0) as [->|Hv];
      [inversion H; subst; right; eexists; split; [eassumption|]; intros ? E; congruence|]);
    try discriminate.
  eapply IH; eauto.
Qed.

(** ** Memory updates *)
Lemma update_length m : forall i o, length (update m i o) = length m.
Proof. induction m as [|x m IH]; intros [|i] o; simpl; auto. Qed.

Lemma update_nth_same m : forall i o x, nth_error m i = Some x -> nth_error (update m i o) i = Some o.
Proof. induction m as [|y m IH]; intros [|i] o x H; simpl in *; try discriminate; eauto. Qed.

Lemma update_nth_other m : forall i j o, i <> j -> nth_error (update m i o) j = nth_error m j.
Proof.
  induction m as [|y m IH]; intros [|i] [|j] o H; simpl; auto; try congruence.
Qed.

Lemma lookup_some_idx m w o : lookup m w = Some o -> exists i, idx m w = Some i /\ w = addr_of i /\ nth_error m i = Some o.
Proof.
  intros H. destruct (lookup_is_addr _ _ _ H) as (i & -> & Hn). exists i. split; auto.
  apply idx_addr. eauto.
Qed.

Lemma store_addr m i o : store m (addr_of i) o = update m i o.
Proof.
  unfold store, addr_of. rewrite Z.mul_comm, Z.div_mul by lia. f_equal. lia.
Qed.

Lemma idx_update m i o w : (exists x, nth_error m i = Some x) -> idx (update m i o) w = idx m w.
Proof.
  intros [x Hx].
  assert (E: forall j, idx (update m i o) w = Some j <-> idx m w = Some j).
  { intros j. rewrite !idx_addr.
    assert (K: (exists o0, nth_error (update m i o) j = Some o0) <-> (exists o0, nth_error m j = Some o0)).
    { destruct (Nat.eq_dec i j) as [->|Hne].
      - rewrite (update_nth_same _ _ _ _ Hx). split; eauto.
      - rewrite update_nth_other by auto. reflexivity. }
    tauto. }
  destruct (idx m w) as [j|].
  - apply E. reflexivity.
  - destruct (idx (update m i o) w) as [j|]; auto. symmetry. apply E. reflexivity.
Qed.

Lemma assign_ref_acyclic m ref value m' :
  refs_ok m -> acyclic m -> assign_ref m ref value = Some (true, m') -> refs_ok m' /\ acyclic m'.
Proof.
  intros Hok Hac H. unfold assign_ref in H.
  destruct (unwrap_loop (length m) m value) as [v|] eqn:Eu; [|discriminate].
  destruct (Z.eqb_spec v ref) as [|Hne]; [discriminate|].
  destruct (lookup m ref) as [[| |old|]|] eqn:El; try discriminate. inversion H; subst m'; clear H.
  destruct (lookup_some_idx _ _ _ El) as (r & Hr & -> & Hnr). rewrite store_addr.
  pose proof (unwrap_loop_terminal _ _ _ _ Eu) as Ht.
  assert (Hidx: forall w, idx (update m r (ORef v)) w = idx m w) by (intros; apply idx_update; eauto).
  split.
  - intros i v' Hi. destruct (Nat.eq_dec r i) as [<-|Hri].
    + rewrite (update_nth_same _ _ _ _ Hnr) in Hi. inversion Hi; subst v'. right.
      destruct Ht as [Hp|(o & Ho & _)]; [left; auto|]. right.
      destruct (lookup_some_idx _ _ _ Ho) as (j & Hj & _). exists j. rewrite Hidx. exact Hj.
    + rewrite update_nth_other in Hi by auto. destruct (Hok _ _ Hi) as [?|[?|[j Hj]]]; auto.
      right. right. exists j. rewrite Hidx. exact Hj.
  - set (m2 := update m r (ORef v)) in *.
    assert (Hn_other: forall i, i <> r -> nxt m2 i = nxt m i).
    { intros i Hi. unfold nxt, m2. rewrite update_nth_other by auto.
      destruct (nth_error m i) as [[]|]; auto. }
    assert (Hn_r: forall j, nxt m2 r = Some j -> nxt m2 j = None).
    { intros j Hj. unfold nxt in Hj. unfold m2 in Hj at 1. rewrite (update_nth_same _ _ _ _ Hnr) in Hj.
      rewrite Hidx in Hj. apply idx_addr in Hj. destruct Hj as (-> & o & Ho).
      destruct Ht as [Hp|(o' & Ho' & Hz)]; [rewrite addr_of_not_packed in Hp; discriminate|].
      rewrite lookup_addr_of in Ho'.
      assert (j <> r) by (intros ->; apply Hne; reflexivity).
      rewrite Hn_other by auto. unfold nxt. rewrite Ho'. destruct o' as [| |v'|]; auto.
      rewrite (Hz v' eq_refl). unfold idx, lookup. reflexivity. }
    assert (Hsplit: forall n i j, iter m2 n i = Some j ->
       iter m n i = Some j \/ (exists k, (k < n)%nat /\ iter m2 k i = Some r)).
    { induction n as [|n IH]; intros i j H; [left; exact H|].
      simpl in H. destruct (nxt m2 i) as [i'|] eqn:En; [|discriminate].
      destruct (Nat.eq_dec i r) as [->|Hi].
      - right. exists O. split; [lia|reflexivity].
      - destruct (IH _ _ H) as [H1|(k & Hk & H1)].
        + left. simpl. rewrite <- Hn_other by auto. rewrite En. exact H1.
        + right. exists (S k). split; [lia|]. simpl. rewrite En. exact H1. }
    intros n i H. destruct (Hsplit _ _ _ H) as [H1|(k & Hk & H1)].
    + exact (Hac _ _ H1).
    + (* the cycle goes through r, whose target is terminal *)
      replace (S n) with (k + S (n - k))%nat in H by lia. rewrite iter_add, H1 in H.
      cbn [iter] in H. destruct (nxt m2 r) as [t|] eqn:En; [|discriminate].
      pose proof (Hn_r _ eq_refl) as Ht'.
      destruct (n - k)%nat as [|x] eqn:Ek.
      * cbn [iter] in H. inversion H; subst t.
        (* i is terminal but has a successor *)
        destruct k as [|k]; [cbn [iter] in H1; inversion H1; subst; congruence|].
        cbn [iter] in H1. rewrite Ht' in H1. discriminate.
      * cbn [iter] in H. rewrite Ht' in H. discriminate.
Qed.

Lemma nth_error_snoc {A} (m : list A) o i x :
  nth_error (m ++ [o]) i = Some x -> nth_error m i = Some x \/ (i = length m /\ x = o).
Proof.
  intros H. destruct (Nat.lt_ge_cases i (length m)).
  - rewrite nth_error_app1 in H by auto. auto.
  - rewrite nth_error_app2 in H by auto.
    destruct (i - length m)%nat as [|k] eqn:E.
    + simpl in H. inversion H. right. split; [lia|auto].
    + simpl in H. destruct k; discriminate.
Qed.

Lemma idx_app m o w i : idx m w = Some i -> idx (m ++ [o]) w = Some i.
Proof.
  rewrite !idx_addr. intros (-> & x & Hx). split; auto. exists x.
  rewrite nth_error_app1; auto. apply nth_error_Some. congruence.
Qed.

Lemma alloc_acyclic m o : refs_ok m -> acyclic m -> (forall v, o = ORef v -> v = 0) ->
  refs_ok (m ++ [o]) /\ acyclic (m ++ [o]).
Proof.
  intros Hok Hac Ho. split.
  - intros i v Hi. apply nth_error_snoc in Hi. destruct Hi as [Hi|[_ Hi]].
    + destruct (Hok _ _ Hi) as [?|[?|[j Hj]]]; auto. right. right. exists j. apply idx_app. auto.
    + left. auto.
  - assert (Hn: forall i j, nxt (m ++ [o]) i = Some j -> nxt m i = Some j).
    { intros i j. unfold nxt. destruct (nth_error (m ++ [o]) i) as [[| |v|]|] eqn:E; try discriminate.
      apply nth_error_snoc in E. destruct E as [E|[_ E]].
      - rewrite E. intros Hj. destruct (Hok _ _ E) as [->|[Hp|[k Hk]]].
        + apply idx_addr in Hj. destruct Hj as (Hj & _). unfold addr_of in Hj. lia.
        + apply idx_addr in Hj. destruct Hj as (Hj & _). subst. rewrite addr_of_not_packed in Hp. discriminate.
        + rewrite (idx_app _ _ _ _ Hk) in Hj. congruence.
      - rewrite (Ho v (eq_sym E)). unfold idx, lookup. discriminate. }
    intros n i H. apply (Hac n i). revert H. generalize i at 2 4. generalize (S n) as k. intros k.
    revert i. induction k as [|k IH]; intros i j H; [exact H|]. simpl in *.
    destruct (nxt (m ++ [o]) i) as [i'|] eqn:E; [|discriminate]. rewrite (Hn _ _ E). auto.
Qed.

(** ** Histories *)
(** Values a client can hold: packed words and allocated objects. *)
Definition client_value (m : mem) (w : Z) : Prop := is_packed w = true \/ exists i, idx m w = Some i.

Lemma strict_chain_unwrap_false m ref value :
  assign_ref m ref value = Some (false, m) <-> unwrap_loop (length m) m value = Some ref.
Proof.
  unfold assign_ref. split.
  - destruct (unwrap_loop (length m) m value) as [v|]; [|discriminate].
    destruct (Z.eqb_spec v ref); [congruence|].
    destruct (lookup m ref) as [[]|]; discriminate.
  - intros ->. rewrite Z.eqb_refl. reflexivity.
Qed.
