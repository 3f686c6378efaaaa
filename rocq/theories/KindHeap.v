(** * C45: reference counts of kinds (lib/kind.c). *)
From Coq Require Import List Arith Lia Bool.
Import ListNotations.

(** ** The model *)

(** A kind in memory: its reference count and its tag and fields (lib/kind.h:34-80); kinds
    are numbered, a freed one is [None]. *)
Inductive shape := HBasic (level : nat) | HPoly (arg rkind : nat).
Definition cell := option (nat * shape).
Definition heap := list cell.

Fixpoint set_cell (i : nat) (c : cell) (h : heap) : heap :=
  match h, i with
  | [], _ => []
  | _ :: r, O => c :: r
  | x :: r, S k => x :: set_cell k c r
  end.
Definition cell_at (h : heap) (i : nat) : cell := match nth_error h i with Some c => c | None => None end.

(** lib/kind.c:14-22 FbleNewBasicKind, and the allocations of FblePolyKind in lib/type.c:101-
    108, 797-816: the fields take over references the caller has. *)
Definition new_kind (h : heap) (s : shape) : heap * nat := (h ++ [Some (1, s)], length h).

(** lib/kind.c:25-30 FbleCopyKind; [None]: the kind was freed. *)
Definition copy_kind (h : heap) (i : nat) : option heap :=
  match cell_at h i with
  | Some (rc, s) => Some (set_cell i (Some (S rc, s)) h)
  | None => None
  end.

(** lib/kind.c:33-56 FbleFreeKind; [None]: a freed kind is read or the assertion fails.
    [n] bounds the depth of the recursion. *)
Fixpoint free_kind (n : nat) (h : heap) (i : nat) : option heap :=
  match n with
  | O => None
  | S n =>
    match cell_at h i with
    | Some (S rc, s) =>
      let h := set_cell i (Some (rc, s)) h in
      if rc =? 0 then
        match s with
        | HBasic _ => Some (set_cell i None h)
        | HPoly a r =>
          match free_kind n h a with
          | Some h =>
            match free_kind n h r with
            | Some h => Some (set_cell i None h)
            | None => None
            end
          | None => None
          end
        end
      else Some h
    | _ => None
    end
  end.

(** ** Histories *)

(** The references the rest of the program has, as a list of kinds.  A kind can be copied if
    it can be reached from one of them. *)
Definition fields (s : shape) : list nat := match s with HBasic _ => [] | HPoly a r => [a; r] end.
Inductive reach (h : heap) (own : list nat) : nat -> Prop :=
| reach_own : forall i, In i own -> reach h own i
| reach_field : forall i rc s j, reach h own i -> cell_at h i = Some (rc, s) -> In j (fields s) -> reach h own j.

(** Calls that respect the contract: references are passed on or released only by who has
    them. *)
Inductive history : heap -> list nat -> Prop :=
| h_start : history [] []
| h_basic : forall h own l, history h own -> history (fst (new_kind h (HBasic l))) (snd (new_kind h (HBasic l)) :: own)
| h_poly : forall h own own' a r, history h own -> (forall x, count_occ Nat.eq_dec own x = count_occ Nat.eq_dec (a :: r :: own') x) ->
    history (fst (new_kind h (HPoly a r))) (snd (new_kind h (HPoly a r)) :: own')
| h_copy : forall h own i h', history h own -> reach h own i -> copy_kind h i = Some h' -> history h' (i :: own)
| h_free : forall h own own' i n h', history h own -> (forall x, count_occ Nat.eq_dec own x = count_occ Nat.eq_dec (i :: own') x) ->
    free_kind n h i = Some h' -> history h' own'.

(** ** Proofs *)

Definition rc_of (c : cell) : nat := match c with Some (n, _) => n | None => 0 end.
Notation occ := (count_occ Nat.eq_dec).
Definition cell_refs (x : nat) (c : cell) : nat := match c with Some (S _, s) => occ (fields s) x | _ => 0 end.
Definition refs (h : heap) (x : nat) : nat := list_sum (map (cell_refs x) h).

(** The count is the number of references; fields are older; [z] are the kinds whose count
    is 0 but that are not freed yet. *)
Record inv (h : heap) (own : nat -> nat) : Prop := mk_inv {
  i_count : forall i, rc_of (cell_at h i) = own i + refs h i;
  i_older : forall i rc s j, cell_at h i = Some (rc, s) -> In j (fields s) -> j < i }.

Lemma set_len i c h : length (set_cell i c h) = length h.
Proof. revert i. induction h as [|x h IH]; intros [|i]; cbn; auto. Qed.
Lemma cell_at_len h i c : cell_at h i = Some c -> i < length h.
Proof. unfold cell_at. destruct (nth_error h i) eqn:E; [|discriminate]. intros _. apply nth_error_Some. congruence. Qed.
Lemma cell_at_set h i c j : i < length h -> cell_at (set_cell i c h) j = if j =? i then c else cell_at h j.
Proof.
  unfold cell_at. revert i j. induction h as [|x h IH]; intros i j L; [cbn in L; lia|]. destruct i as [|i], j as [|j]; cbn; auto.
  apply IH. cbn in L. lia.
Qed.
Lemma refs_set h i c x : i < length h -> refs (set_cell i c h) x + cell_refs x (cell_at h i) = refs h x + cell_refs x c.
Proof.
  unfold refs, cell_at. revert i. induction h as [|y h IH]; intros i L; [cbn in L; lia|]. destruct i as [|i].
  - change (list_sum (map (cell_refs x) (set_cell 0 c (y :: h)))) with (cell_refs x c + list_sum (map (cell_refs x) h)).
    change (list_sum (map (cell_refs x) (y :: h))) with (cell_refs x y + list_sum (map (cell_refs x) h)). cbn [nth_error]. lia.
  - change (list_sum (map (cell_refs x) (set_cell (S i) c (y :: h)))) with (cell_refs x y + list_sum (map (cell_refs x) (set_cell i c h))).
    change (list_sum (map (cell_refs x) (y :: h))) with (cell_refs x y + list_sum (map (cell_refs x) h)). cbn [nth_error]. cbn in L. specialize (IH i). lia.
Qed.

Definition less (own : nat -> nat) (i : nat) : nat -> nat := fun x => own x - (if x =? i then 1 else 0).

(** What freeing changes: counts, and kinds that are gone; a kind at count 0 stays so. *)
Definition keeps (h h' : heap) : Prop := length h' = length h /\ forall i, match cell_at h i with
  | Some (0, s) => cell_at h' i = Some (0, s)
  | Some (S n, s) => cell_at h' i = None \/ exists m, cell_at h' i = Some (S m, s)
  | None => cell_at h' i = None end.

Lemma keeps_trans a b c : keeps a b -> keeps b c -> keeps a c.
Proof.
  intros [L1 A] [L2 B]. split; [congruence|]. intros i. specialize (A i). specialize (B i). destruct (cell_at a i) as [[[|n] s]|].
  - rewrite A in B. auto.
  - destruct A as [A|[m A]]; rewrite A in B; auto.
  - rewrite A in B. auto.
Qed.

Lemma inv_ext h f g : (forall x, f x = g x) -> inv h f -> inv h g.
Proof. intros E [A B]. constructor; auto. intros i. rewrite <- E. auto. Qed.

Lemma free_spec : forall n h own i, inv h own -> 0 < own i -> i < n -> exists h', free_kind n h i = Some h' /\ inv h' (less own i) /\ keeps h h'.
Proof.
  induction n as [|n IH]; intros h own i I O L; [lia|]. cbn [free_kind].
  pose proof (i_count h own I i) as C. destruct (cell_at h i) as [[[|rc] s]|] eqn:E; cbn [rc_of] in C; try lia.
  pose proof (cell_at_len _ _ _ E) as Li.
  destruct (rc =? 0) eqn:R.
  2:{ apply Nat.eqb_neq in R. eexists. split; [reflexivity|]. split.
      - constructor.
        + intros j. rewrite cell_at_set by auto. pose proof (refs_set h i (Some (rc, s)) j Li) as RS. rewrite E in RS. destruct rc as [|rc]; [lia|]. cbn [cell_refs] in RS.
          pose proof (i_count h own I j) as Cj. unfold less. destruct (Nat.eqb_spec j i) as [->|D]; cbn [rc_of]; lia.
        + intros j rc' s' k. rewrite cell_at_set by auto. destruct (Nat.eqb_spec j i) as [->|D]; [|apply (i_older h own I)].
          intros Q. injection Q as <- <-. apply (i_older h own I i _ _ _ E).
      - split; [apply set_len|]. intros j. rewrite cell_at_set by auto. destruct (Nat.eqb_spec j i) as [->|D].
        + rewrite E. right. destruct rc as [|rc]; [lia|]. eauto.
        + destruct (cell_at h j) as [[[|m] s']|]; eauto. }
  apply Nat.eqb_eq in R. subst rc.
  (* the count becomes 0: the references of the fields are now ours *)
  set (h1 := set_cell i (Some (0, s)) h).
  assert (C1 : forall j, cell_at h1 j = if j =? i then Some (0, s) else cell_at h j) by (intros j; apply cell_at_set; auto).
  assert (R1 : forall x, refs h1 x + occ (fields s) x = refs h x).
  { intros x. pose proof (refs_set h i (Some (0, s)) x Li) as RS. rewrite E in RS. cbn [cell_refs] in RS. fold h1 in RS. lia. }
  assert (Gone : forall own', (forall x, rc_of (if x =? i then Some (0, s) else cell_at h x) = own' x + refs h1 x) -> inv h1 own').
  { intros own' H. constructor; [intros j; rewrite C1; auto|]. intros j rc' s' k. rewrite C1. destruct (Nat.eqb_spec j i) as [->|D]; [|apply (i_older h own I)].
    intros Q. injection Q as <- <-. apply (i_older h own I i _ _ _ E). }
  assert (I1 : inv h1 (fun x => less own i x + occ (fields s) x)).
  { apply Gone. intros x. specialize (R1 x). pose proof (i_count h own I x) as Cx. unfold less. destruct (Nat.eqb_spec x i) as [->|D]; [|cbn in *; lia].
    rewrite E in Cx. cbn [rc_of] in *. lia. }
  (* when they are released, the kind is freed *)
  assert (End : forall h2, inv h2 (less own i) -> keeps h1 h2 -> exists h', Some (set_cell i None h2) = Some h' /\ inv h' (less own i) /\ keeps h h').
  { intros h2 I2 [L2 K2]. eexists. split; [reflexivity|]. assert (Li2 : i < length h2) by (rewrite L2; unfold h1; rewrite set_len; auto).
    assert (Ci : cell_at h2 i = Some (0, s)) by (specialize (K2 i); rewrite C1, Nat.eqb_refl in K2; auto). split.
    - constructor.
      + intros j. rewrite cell_at_set by auto. pose proof (refs_set h2 i None j Li2) as RS. rewrite Ci in RS. cbn [cell_refs] in RS.
        pose proof (i_count h2 _ I2 j) as Cj. destruct (Nat.eqb_spec j i) as [->|D]; [rewrite Ci in Cj|]; cbn [rc_of] in *; lia.
      + intros j rc' s' k. rewrite cell_at_set by auto. destruct (Nat.eqb_spec j i) as [->|D]; [discriminate|apply (i_older h2 _ I2)].
    - split; [rewrite set_len, L2; unfold h1; apply set_len|]. intros j. rewrite cell_at_set by auto. destruct (Nat.eqb_spec j i) as [->|D].
      + rewrite E. auto.
      + specialize (K2 j). rewrite C1 in K2. destruct (Nat.eqb_spec j i); [lia|]. exact K2. }
  destruct s as [l|a r].
  - apply End; [apply (inv_ext h1 _ _ (fun x => Nat.add_0_r _)); exact I1|]. split; auto. intros j. destruct (cell_at h1 j) as [[[|m] s']|]; eauto.
  - assert (La : a < i) by (apply (i_older h own I i _ _ a E); left; auto).
    assert (Lr : r < i) by (apply (i_older h own I i _ _ r E); right; left; auto).
    destruct (IH h1 _ a I1) as [h2 [F2 [I2 K2]]]; [cbn; destruct (Nat.eq_dec a a); [|congruence]; destruct (Nat.eq_dec r a); lia|lia|].
    fold h1. rewrite F2.
    assert (I2' : inv h2 (fun x => less own i x + (if x =? r then 1 else 0))).
    { apply (inv_ext h2 (less (fun x => less own i x + occ (fields (HPoly a r)) x) a)); [|exact I2]. intros x. unfold less at 1. cbn [fields count_occ].
      destruct (Nat.eq_dec a x), (Nat.eq_dec r x), (Nat.eqb_spec x a), (Nat.eqb_spec x r); lia. }
    destruct (IH h2 _ r I2') as [h3 [F3 [I3 K3]]]; [cbn; rewrite Nat.eqb_refl; lia|lia|]. rewrite F3. apply End; [|apply (keeps_trans h1 h2 h3); auto].
    apply (inv_ext h3 (less (fun x => less own i x + (if x =? r then 1 else 0)) r)); [|exact I3]. intros x. unfold less at 1. destruct (Nat.eqb_spec x r); lia.
Qed.

(** Between calls no count is 0. *)
Definition settled (h : heap) : Prop := forall i s, cell_at h i <> Some (0, s).
Lemma keeps_settled h h' : settled h -> keeps h h' -> settled h'.
Proof.
  intros S [_ K] i s E. specialize (K i). specialize (S i). destruct (cell_at h i) as [[[|n] s']|].
  - apply (S s'). auto.
  - destruct K as [K|[m K]]; congruence.
  - congruence.
Qed.

Lemma cell_at_app h c j : cell_at (h ++ [c]) j = if j =? length h then c else cell_at h j.
Proof.
  unfold cell_at. destruct (Nat.eqb_spec j (length h)) as [->|D].
  - rewrite nth_error_app2, Nat.sub_diag by lia. reflexivity.
  - destruct (le_lt_dec (length h) j) as [G|G]; [|rewrite nth_error_app1 by auto; auto].
    rewrite (proj2 (nth_error_None (h ++ [c]) j)), (proj2 (nth_error_None h j)); auto. rewrite app_length. cbn. lia.
Qed.
Lemma refs_app h c x : refs (h ++ [c]) x = refs h x + cell_refs x c.
Proof. unfold refs. rewrite map_app, list_sum_app. cbn. lia. Qed.
Lemma rc_refs h own i : inv h own -> 0 < own i \/ 0 < refs h i -> i < length h.
Proof.
  intros I H. pose proof (i_count h own I i) as C. unfold cell_at in C. destruct (nth_error h i) eqn:E; [|cbn in C; lia].
  apply nth_error_Some. congruence.
Qed.

Lemma reach_alive h own i : inv h (occ own) -> reach h own i -> exists rc s, cell_at h i = Some (S rc, s).
Proof.
  intros I R. induction R as [i In_|i rc s j R [rc' [s' E']] E J].
  - pose proof (i_count h _ I i) as C. apply (count_occ_In Nat.eq_dec) in In_. destruct (cell_at h i) as [[[|n] s]|]; cbn in C; try lia. eauto.
  - rewrite E' in E. injection E as <- <-.
    assert (P : 0 < refs h j).
    { unfold refs, cell_at in *. clear -E' J. revert i E'. induction h as [|c h IH]; intros i E'; [destruct i; discriminate|].
      change (0 < cell_refs j c + list_sum (map (cell_refs j) h)). destruct i as [|i]; cbn in E'.
      - subst c. cbn [cell_refs]. apply (count_occ_In Nat.eq_dec) in J. lia.
      - specialize (IH i E'). lia. }
    pose proof (i_count h _ I j) as C. destruct (cell_at h j) as [[[|n] s]|]; cbn in C; try lia. eauto.
Qed.

Lemma history_inv h own : history h own -> inv h (occ own) /\ settled h.
Proof.
  assert (New : forall h f s own', inv h f -> settled h -> (forall x, f x = occ own' x + occ (fields s) x) -> (forall j, In j (fields s) -> j < length h) ->
    inv (h ++ [Some (1, s)]) (occ (length h :: own')) /\ settled (h ++ [Some (1, s)])).
  { intros h0 f s own' I St Ff Fs. split; [constructor|].
    - intros j. rewrite cell_at_app, refs_app. cbn [cell_refs count_occ]. pose proof (i_count h0 f I j) as C. rewrite Ff in C.
      destruct (Nat.eqb_spec j (length h0)) as [->|D].
      + destruct (Nat.eq_dec (length h0) (length h0)); [|congruence]. cbn [rc_of].
        assert (X : cell_at h0 (length h0) = None) by (unfold cell_at; rewrite (proj2 (nth_error_None h0 _)); auto). rewrite X in C. cbn in C. lia.
      + destruct (Nat.eq_dec (length h0) j); [congruence|]. lia.
    - intros i rc s' j. rewrite cell_at_app. destruct (Nat.eqb_spec i (length h0)) as [->|D]; [|apply (i_older h0 f I)]. intros Q. injection Q as <- <-. auto.
    - intros i s'. rewrite cell_at_app. destruct (i =? length h0); [congruence|apply St]. }
  induction 1 as [|h own l H [I St]|h own own' a r H [I St] P|h own i h' H [I St] R C|h own own' i n h' H [I St] P F].
  - split; [constructor|]; intros i; destruct i; cbn; try discriminate; auto.
  - apply (New h (occ own) (HBasic l) own); auto. intros j [].
  - apply (New h (occ own) (HPoly a r) own'); auto.
    + intros x. rewrite P. cbn. destruct (Nat.eq_dec a x), (Nat.eq_dec r x); lia.
    + intros j J. apply (rc_refs h (occ own) j I). left. rewrite P. cbn. destruct J as [<-|[<-|[]]]; [destruct (Nat.eq_dec a a); [|congruence]; destruct (Nat.eq_dec r a); lia|].
      destruct (Nat.eq_dec r r); [|congruence]. destruct (Nat.eq_dec a r); lia.
  - unfold copy_kind in C. destruct (cell_at h i) as [[rc s]|] eqn:E; [|discriminate]. injection C as <-. pose proof (cell_at_len _ _ _ E) as Li. split; [constructor|].
    + intros j. rewrite cell_at_set by auto. pose proof (refs_set h i (Some (S rc, s)) j Li) as RS. rewrite E in RS.
      destruct rc as [|rc]; [exfalso; apply (St i s E)|]. cbn [cell_refs] in RS. pose proof (i_count h _ I j) as Cj. cbn [count_occ].
      destruct (Nat.eqb_spec j i) as [->|D]; [rewrite E in Cj; destruct (Nat.eq_dec i i); [|congruence]|destruct (Nat.eq_dec i j); [congruence|]]; cbn [rc_of] in *; lia.
    + intros j rc' s' k. rewrite cell_at_set by auto. destruct (Nat.eqb_spec j i) as [->|D]; [|apply (i_older h _ I)]. intros Q. injection Q as <- <-. apply (i_older h _ I i _ _ _ E).
    + intros j s'. rewrite cell_at_set by auto. destruct (j =? i); [congruence|apply St].
  - assert (O : 0 < occ own i) by (rewrite P; cbn; destruct (Nat.eq_dec i i); [lia|congruence]).
    assert (Mono : forall m k h i h', free_kind m h i = Some h' -> m <= k -> free_kind k h i = Some h').
    { clear. induction m as [|m IH]; intros k h i h' F L; [discriminate|]. destruct k as [|k]; [lia|]. cbn [free_kind] in *. destruct (cell_at h i) as [[[|rc] s]|]; try discriminate.
      destruct (rc =? 0); auto. destruct s as [l|a r]; auto. destruct (free_kind m (set_cell i (Some (rc, HPoly a r)) h) a) as [h2|] eqn:F2; [|discriminate].
      rewrite (IH k _ _ _ F2) by lia. destruct (free_kind m h2 r) as [h3|] eqn:F3; [|discriminate]. rewrite (IH k _ _ _ F3) by lia. auto. }
    destruct (free_spec (n + S i) h (occ own) i I O) as [h2 [F2 [I2 K2]]]; [lia|].
    rewrite (Mono n (n + S i) h i h' F) in F2 by lia. injection F2 as <-. split; [|apply (keeps_settled h h'); auto].
    apply (inv_ext h' (less (occ own) i)); auto. intros x. unfold less. rewrite P. cbn. destruct (Nat.eq_dec i x), (Nat.eqb_spec x i); lia.
Qed.

(** C45: at any point of any history, exactly the kinds that can be reached from the
    references the program has are in memory. *)
Theorem kinds_alive_iff_reachable : forall h own, history h own -> forall i, cell_at h i <> None <-> reach h own i.
Proof.
  intros h own H. destruct (history_inv h own H) as [I St]. intros i. split.
  - intros A. remember (length h - i) as d. revert i A Heqd. induction d as [d IH] using lt_wf_ind. intros i A Ed.
    destruct (cell_at h i) as [[[|rc] s]|] eqn:E; [exfalso; apply (St i s E)| |congruence]. pose proof (cell_at_len _ _ _ E) as Li.
    pose proof (i_count h _ I i) as C. rewrite E in C. cbn [rc_of] in C.
    destruct (occ own i) as [|k] eqn:O; [|apply reach_own; apply (count_occ_In Nat.eq_dec); lia].
    assert (Ex : exists j rc' s', cell_at h j = Some (S rc', s') /\ In i (fields s')).
    { assert (P : 0 < refs h i) by lia. clear -P. unfold refs, cell_at in *. induction h as [|c h IHh]; [cbn in P; lia|].
      change (0 < cell_refs i c + list_sum (map (cell_refs i) h)) in P. destruct (cell_refs i c) eqn:Q.
      - destruct IHh as [j [rc' [s' [E F]]]]; [lia|]. exists (S j), rc', s'. auto.
      - destruct c as [[[|rc'] s']|]; try discriminate. exists 0, rc', s'. split; auto. apply (count_occ_In Nat.eq_dec). cbn in Q. lia. }
    destruct Ex as [j [rc' [s' [Ej Fi]]]]. pose proof (i_older h _ I j _ _ _ Ej Fi) as Lt. pose proof (cell_at_len _ _ _ Ej) as Lj.
    apply (reach_field h own j (S rc') s' i); [apply (IH (length h - j)); try lia; congruence|exact Ej|exact Fi].
  - intros R. destruct (reach_alive h own i I R) as [rc [s E]]. congruence.
Qed.

(** All calls are defined: no freed kind is used, and the assertions hold. *)
Theorem kind_calls_defined : forall h own, history h own ->
  (forall i, reach h own i -> exists h', copy_kind h i = Some h') /\
  (forall i, In i own -> exists n h', free_kind n h i = Some h').
Proof.
  intros h own H. destruct (history_inv h own H) as [I St]. split.
  - intros i R. destruct (reach_alive h own i I R) as [rc [s E]]. unfold copy_kind. rewrite E. eauto.
  - intros i O. apply (count_occ_In Nat.eq_dec) in O. destruct (free_spec (S i) h (occ own) i I) as [h' [F _]]; auto. eauto.
Qed.

(** In particular nothing leaks: when no reference is left, all kinds are freed. *)
Corollary kinds_all_freed : forall h, history h [] -> forall i, cell_at h i = None.
Proof.
  intros h H i. destruct (cell_at h i) as [c|] eqn:E; auto. exfalso.
  assert (R : reach h [] i) by (apply kinds_alive_iff_reachable; [exact H|congruence]). clear -R. induction R; auto.
Qed.

(** A poly kind that shares its two fields, is copied, and released twice. *)
Example ex_history : exists h own, history h own /\ h = [Some (1, HBasic 1); None] /\ own = [0].
Proof.
  pose proof h_start as H. apply (h_basic _ _ 1) in H. cbn in H.
  assert (H1 := H). apply (h_copy _ _ 0 [Some (2, HBasic 1)]) in H1; [|apply reach_own; left; auto|reflexivity].
  apply (h_copy _ _ 0 [Some (3, HBasic 1)]) in H1; [|apply reach_own; left; auto|reflexivity].
  apply (h_poly _ _ [0] 0 0) in H1; [|reflexivity]. cbn in H1.
  apply (h_copy _ _ 1 [Some (3, HBasic 1); Some (2, HPoly 0 0)]) in H1; [|apply reach_own; left; auto|reflexivity].
  apply (h_free _ _ [1; 0] 1 5 [Some (3, HBasic 1); Some (1, HPoly 0 0)]) in H1; [|reflexivity|reflexivity].
  apply (h_free _ _ [0] 1 5 [Some (1, HBasic 1); None]) in H1; [|reflexivity|reflexivity].
  eauto.
Qed.
