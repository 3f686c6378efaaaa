(** * The call stack of the profiler behaves as a list (C24). *)
From Coq Require Import ZArith List Bool Lia.
From Verif Require Import ProfileModel.
Import ListNotations.
Local Open Scope list_scope.

Lemma upd_length : forall A (l : list A) i x, length (upd l i x) = length l.
Proof. induction l; destruct i; simpl; intros; auto. Qed.

Lemma nth_upd_same : forall A (l : list A) i x, i < length l -> nth_error (upd l i x) i = Some x.
Proof. induction l; destruct i; simpl; intros; try lia; auto. apply IHl. lia. Qed.

Lemma nth_upd_other : forall A (l : list A) i j x, i <> j -> nth_error (upd l i x) j = nth_error l j.
Proof. induction l; destruct i, j; simpl; intros; try lia; auto. Qed.

Lemma upd_app : forall A (a : list A) y r x, upd (a ++ y :: r) (length a) x = a ++ x :: r.
Proof. induction a; simpl; intros; congruence. Qed.

Lemma nth_app : forall A (a : list A) y r, nth_error (a ++ y :: r) (length a) = Some y.
Proof. induction a; simpl; auto. Qed.

Lemma nth_some_lt : forall A (l : list A) i x, nth_error l i = Some x -> i < length l.
Proof. intros. apply nth_error_Some. congruence. Qed.

Lemma split_nth : forall A (l : list A) i x, nth_error l i = Some x ->
  exists a r, l = a ++ x :: r /\ length a = i.
Proof. intros. apply nth_error_split in H. exact H. Qed.

Lemma upd_map : forall A B (f : A -> B) (l : list A) i x y,
  nth_error l i = Some y -> f y = f x -> map f (upd l i x) = map f l.
Proof.
  induction l; destruct i; simpl; intros; try discriminate.
  - inversion H; subst. congruence.
  - f_equal. eapply IHl; eauto.
Qed.

(** A call of the stack: its block and how many samples leave with it. *)
Definition call := (nat * nat)%type.
Definition entry_of (c : call) : entry := Entry (Some (fst c)) (Some (snd c)).

Definition full (k : chunk) : Prop := ck_top k = ck_end k /\ 0 < ck_end k /\ length (ck_data k) = ck_end k.
Definition spare (l : list chunk) : Prop :=
  l = [] \/ exists k, l = [k] /\ ck_top k = 0 /\ 0 < ck_end k /\ length (ck_data k) = ck_end k.

(** The thread's call stack is l, the innermost call first; top may be uninitialised
    ([rep_raw]). *)
Definition rep_raw (th : thread) (es : list entry) : Prop :=
  exists pre c post,
    chunks th = pre ++ c :: post /\ cur th = length pre /\ Forall full pre /\
    ck_top c < ck_end c /\ length (ck_data c) = ck_end c /\ spare post /\ lost th = 0 /\
    rev es = concat (map ck_data pre) ++ firstn (S (ck_top c)) (ck_data c).
Definition rep (th : thread) (l : list call) : Prop := rep_raw th (map entry_of l).

Lemma firstn_S_nth : forall A (l : list A) n x, nth_error l n = Some x -> firstn (S n) l = firstn n l ++ [x].
Proof.
  induction l; destruct n; simpl; intros; try discriminate.
  - inversion H; auto.
  - f_equal. apply IHl; auto.
Qed.

Lemma firstn_upd : forall A (l : list A) n x, n < length l -> firstn (S n) (upd l n x) = firstn n l ++ [x].
Proof.
  intros. rewrite (firstn_S_nth _ _ n x) by (apply nth_upd_same; auto). f_equal.
  revert n H. induction l; destruct n; simpl; intros; try lia; auto. f_equal. apply IHl. lia.
Qed.

Lemma rev_cons_inv : forall A (e : A) es a x, rev (e :: es) = a ++ [x] -> x = e /\ rev es = a.
Proof. simpl; intros. apply app_inj_tail in H. destruct H; auto. Qed.

Lemma top_rep : forall th e es, rep_raw th (e :: es) -> top_entry th = Some e.
Proof.
  intros th e es (pre & c & post & E1 & E2 & F & T & L & SP & LO & R).
  unfold top_entry. rewrite E1, E2, nth_app. simpl.
  destruct (nth_error (ck_data c) (ck_top c)) eqn:N.
  - rewrite (firstn_S_nth _ _ _ _ N), app_assoc in R. apply rev_cons_inv in R. destruct R; congruence.
  - apply nth_error_None in N. lia.
Qed.

Lemma set_top_rep : forall th e es e', rep_raw th (e :: es) ->
  exists th', set_top th e' = Some th' /\ rep_raw th' (e' :: es) /\
    samples th' = samples th /\ sample_capacity th' = sample_capacity th /\ sset th' = sset th /\ ttrs th' = ttrs th.
Proof.
  intros th e es e' (pre & c & post & E1 & E2 & F & T & L & SP & LO & R).
  unfold set_top. rewrite E1, E2, nth_app. simpl.
  destruct (nth_error (ck_data c) (ck_top c)) eqn:N.
  2:{ apply nth_error_None in N. lia. }
  simpl. eexists; split; [reflexivity|]. repeat split; auto.
  exists pre, (CK (ck_top c) (ck_end c) (upd (ck_data c) (ck_top c) e')), post. cbn [chunks cur lost with_chunks ck_top ck_end ck_data].
  rewrite upd_app, upd_length. repeat split; auto.
  rewrite (firstn_S_nth _ _ _ _ N), app_assoc in R. apply rev_cons_inv in R. destruct R as [_ R].
  rewrite firstn_upd by lia. cbn [rev]. rewrite R, <- app_assoc. reflexivity.
Qed.

Lemma push_rep : forall th e es, rep_raw th (e :: es) ->
  exists th' e', push th = Some th' /\ rep_raw th' (e' :: e :: es) /\
    samples th' = samples th /\ sample_capacity th' = sample_capacity th /\ sset th' = sset th /\ ttrs th' = ttrs th.
Proof.
  intros th e es (pre & c & post & E1 & E2 & F & T & L & SP & LO & R).
  unfold push. rewrite E1, E2, nth_app. cbn [bind]. cbv zeta. rewrite upd_app.
  destruct (Nat.eqb_spec (S (ck_top c)) (ck_end c)) as [Q|Q].
  - assert (FC : full (CK (S (ck_top c)) (ck_end c) (ck_data c))) by (repeat split; simpl; lia).
    assert (FF : Forall full (pre ++ [CK (S (ck_top c)) (ck_end c) (ck_data c)])).
    { apply Forall_app; split; auto. }
    assert (DD : rev (e :: es) = concat (map ck_data (pre ++ [CK (S (ck_top c)) (ck_end c) (ck_data c)]))).
    { rewrite R, map_app, concat_app. cbn [map concat ck_data]. rewrite Q, List.app_nil_r. f_equal. apply firstn_all2. lia. }
    destruct SP as [SP | (k & SP & K1 & K2 & K3)]; subst post.
    + rewrite app_length. simpl length. replace (S (length pre) <? length pre + 1) with false by (symmetry; apply Nat.ltb_ge; lia).
      eexists _, uninit. split; [reflexivity|]. repeat split; auto.
      exists (pre ++ [CK (S (ck_top c)) (ck_end c) (ck_data c)]), (CK 0 (2 * ck_end c) (repeat uninit (2 * ck_end c))), [].
      cbn [chunks cur lost with_chunks ck_top ck_end ck_data].
      rewrite <- !app_assoc. cbn [app]. rewrite repeat_length. repeat split; auto; try lia.
      * rewrite app_length. simpl. lia.
      * left; auto.
      * simpl rev in *. rewrite <- app_assoc in *. rewrite app_assoc, DD. f_equal.
        destruct (2 * ck_end c) eqn:Z; [lia|]. reflexivity.
    + rewrite app_length. simpl length. replace (S (length pre) <? length pre + 2) with true by (symmetry; apply Nat.ltb_lt; lia).
      destruct (ck_data k) as [|e' rest] eqn:DK; [simpl in K3; lia|].
      eexists _, e'. split; [reflexivity|]. repeat split; auto.
      exists (pre ++ [CK (S (ck_top c)) (ck_end c) (ck_data c)]), k, [].
      cbn [chunks cur lost with_chunks].
      rewrite <- !app_assoc. cbn [app]. rewrite DK. repeat split; auto; try lia.
      * rewrite app_length. simpl. lia.
      * left; auto.
      * rewrite K1. simpl rev in *. rewrite DD. reflexivity.
  - destruct (nth_error (ck_data c) (S (ck_top c))) as [e'|] eqn:N.
    2:{ apply nth_error_None in N. lia. }
    eexists _, e'. split; [reflexivity|]. repeat split; auto.
    exists pre, (CK (S (ck_top c)) (ck_end c) (ck_data c)), post. cbn [chunks cur lost with_chunks ck_top ck_end ck_data].
    repeat split; auto; try lia.
    rewrite (firstn_S_nth _ _ _ _ N), app_assoc. change (rev (e' :: e :: es)) with (rev (e :: es) ++ [e']).
    f_equal. exact R.
Qed.

Lemma snoc_case : forall A (l : list A), l = [] \/ exists a x, l = a ++ [x].
Proof.
  induction l as [|y r IH]; auto. right. destruct IH as [->|(a & x & ->)].
  - exists [], y; auto.
  - exists (y :: a), x; auto.
Qed.

Lemma pop_rep : forall th e e2 es, rep_raw th (e :: e2 :: es) ->
  exists th', pop th = Some th' /\ rep_raw th' (e2 :: es) /\
    samples th' = samples th /\ sample_capacity th' = sample_capacity th /\ sset th' = sset th /\ ttrs th' = ttrs th.
Proof.
  intros th e e2 es (pre & c & post & E1 & E2 & F & T & L & SP & LO & R).
  unfold pop. rewrite E1, E2, nth_app. cbn [bind].
  destruct (nth_error (ck_data c) (ck_top c)) eqn:N.
  2:{ apply nth_error_None in N. lia. }
  rewrite (firstn_S_nth _ _ _ _ N), app_assoc in R. apply rev_cons_inv in R. destruct R as [_ R].
  destruct (Nat.eqb_spec (ck_top c) 0) as [Q|Q].
  - rewrite Q in R. simpl firstn in R. rewrite List.app_nil_r in R.
    destruct (snoc_case _ pre) as [->|(p & k & ->)].
    + simpl in R. apply (f_equal (@length _)) in R. rewrite app_length in R. simpl in R. lia.
    + rewrite app_length. simpl length. replace (length p + 1) with (S (length p)) by lia.
      cbn [bind].
      assert (FN : firstn (S (S (length p))) ((p ++ [k]) ++ c :: post) = p ++ [k; c]).
      { rewrite <- app_assoc. cbn [app].
        replace (S (S (length p))) with (length p + 2) by lia. rewrite firstn_app_2. reflexivity. }
      rewrite FN. cbn [chunks cur with_chunks]. rewrite nth_app. cbn [bind].
      apply Forall_app in F. destruct F as [F FK]. inversion FK as [|? ? (K1 & K2 & K3) ?]; subst.
      destruct (ck_top k) eqn:TK; [lia|]. rewrite upd_app.
      eexists; split; [reflexivity|]. repeat split; auto.
      exists p, (CK n (ck_end k) (ck_data k)), [c]. cbn [chunks cur lost with_chunks ck_top ck_end ck_data].
      repeat split; auto; try lia.
      * right. exists c. repeat split; auto; lia.
      * rewrite app_length. simpl length. rewrite LO.
        destruct SP as [-> | (x & -> & _)]; simpl; rewrite app_length; simpl; lia.
      * rewrite R. rewrite map_app, concat_app. simpl. rewrite List.app_nil_r. f_equal.
        rewrite <- (firstn_all (ck_data k)) at 1. rewrite K3, <- K1. reflexivity.
  - cbn [bind]. rewrite E1, E2, nth_app. cbn [bind]. destruct (ck_top c) eqn:TC; [lia|]. rewrite upd_app.
    eexists; split; [reflexivity|]. repeat split; auto.
    exists pre, (CK n (ck_end c) (ck_data c)), post. cbn [chunks cur lost with_chunks ck_top ck_end ck_data].
    repeat split; auto; lia.
Qed.

(** Freeing a thread frees every chunk of its call stack. *)
Lemma free_thread_all : forall th es, rep_raw th es -> free_thread (Some th) = length (chunks th) /\ lost th = 0.
Proof.
  intros th es (pre & c & post & E1 & E2 & F & T & L & SP & LO & R). split; auto.
  simpl. rewrite E1, E2, app_length. simpl length. destruct SP as [-> | (k & -> & _)]; simpl length.
  - replace (S (length pre) <? length pre + 1) with false by (symmetry; apply Nat.ltb_ge; lia). lia.
  - replace (S (length pre) <? length pre + 2) with true by (symmetry; apply Nat.ltb_lt; lia). lia.
Qed.
