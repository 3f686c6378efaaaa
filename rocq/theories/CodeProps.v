(** * The interpreter: union select (C21) and its part in the calling convention (C17, C18). *)
From Coq Require Import List Arith Lia Bool.
From Verif Require Import FuncModel FuncProps CodeModel.
Import ListNotations.

(** ** C21 *)
(** The targets of a select are sorted by tag, without duplicates. *)
Definition sorted_targets (l : list (nat * nat)) : Prop :=
  forall i j ti tj, i < j -> nth_error l i = Some ti -> nth_error l j = Some tj -> fst ti < fst tj.

Lemma select_search_correct : forall k targets default tag lo hi,
  sorted_targets targets -> hi <= length targets -> hi - lo <= k ->
  (forall i t, i < lo -> nth_error targets i = Some t -> fst t <> tag) ->
  (forall i t, hi <= i -> nth_error targets i = Some t -> fst t <> tag) ->
  exists pc, select_search k targets default tag lo hi = Some pc /\
    (In (tag, pc) targets \/ (~ In tag (map fst targets) /\ pc = default)).
Proof.
  induction k; intros targets default tag lo hi Hs Hl Hk Hlo Hhi; cbn [select_search].
  - replace (lo <? hi) with false by (symmetry; apply Nat.ltb_ge; lia).
    exists default. split; auto. right. split; auto. intros I. apply in_map_iff in I. destruct I as [t [E I]].
    apply In_nth_error in I. destruct I as [i Ei].
    destruct (Nat.lt_ge_cases i lo); [eapply Hlo; eauto|eapply (Hhi i); eauto; lia].
  - destruct (lo <? hi) eqn:L.
    + apply Nat.ltb_lt in L.
      assert (M : lo <= (lo + hi) / 2 < hi).
      { split; [apply Nat.div_le_lower_bound; lia|apply Nat.div_lt_upper_bound; lia]. }
      remember ((lo + hi) / 2) as mid.
      destruct (nth_error targets mid) as [[mt target]|] eqn:Em.
      2: { apply nth_error_None in Em. lia. }
      destruct (tag =? mt) eqn:E1.
      * apply Nat.eqb_eq in E1. subst. exists target. split; auto. left. eapply nth_error_In; eauto.
      * apply Nat.eqb_neq in E1. destruct (tag <? mt) eqn:E2.
        -- apply Nat.ltb_lt in E2. apply IHk; auto; try lia.
           intros i t Hi Ei. destruct (Nat.eq_dec i mid).
           ++ subst i. rewrite Em in Ei. injection Ei as <-. cbn. lia.
           ++ assert (X := Hs mid i _ _ ltac:(lia) Em Ei). cbn in X. lia.
        -- apply Nat.ltb_ge in E2. apply IHk; auto; try lia.
           intros i t Hi Ei. destruct (Nat.eq_dec i mid).
           ++ subst i. rewrite Em in Ei. injection Ei as <-. cbn. lia.
           ++ assert (X := Hs i mid _ _ ltac:(lia) Ei Em). cbn in X. lia.
    + apply Nat.ltb_ge in L.
      exists default. split; auto. right. split; auto. intros I. apply in_map_iff in I. destruct I as [t [E I]].
      apply In_nth_error in I. destruct I as [i Ei].
      destruct (Nat.lt_ge_cases i lo); [eapply Hlo; eauto|eapply (Hhi i); eauto; lia].
Qed.

(** For every sorted table with at least one entry and every tag, select goes to the entry of
    the tag if there is one, and to the default otherwise; it never reads outside the
    table. *)
Theorem select_target_correct : forall num_tags targets default tag,
  sorted_targets targets -> targets <> [] -> tag < num_tags ->
  exists pc, select_target num_tags targets default tag = Some pc /\
    (forall pc', In (tag, pc') targets -> pc = pc') /\
    (~ In tag (map fst targets) -> pc = default).
Proof.
  intros num_tags targets default tag Hs Hn Ht.
  destruct targets as [|t0 ts] eqn:Et; [congruence|]. rewrite <- Et in *.
  destruct (select_search_correct (length targets) targets default tag 0 (length targets)) as [pc [E H]]; auto; try lia.
  { intros i t Hi Ei. exfalso. assert (nth_error targets i <> None) by congruence. apply nth_error_Some in H. lia. }
  exists pc. split; [unfold select_target; rewrite (proj2 (Nat.ltb_lt _ _) Ht); rewrite Et in *; exact E|].
  assert (Uniq : forall a b, In (tag, a) targets -> In (tag, b) targets -> a = b).
  { intros a b Ia Ib. apply In_nth_error in Ia, Ib. destruct Ia as [i Ei], Ib as [j Ej].
    destruct (lt_eq_lt_dec i j) as [[L|L]|L].
    - assert (X := Hs _ _ _ _ L Ei Ej). cbn in X. lia.
    - subst j. congruence.
    - assert (X := Hs _ _ _ _ L Ej Ei). cbn in X. lia. }
  split.
  - intros pc' I'. destruct H as [H|[H _]]; [eauto|]. exfalso. apply H. apply in_map_iff. exists (tag, pc'). auto.
  - intros N. destruct H as [H|[_ H]]; auto. exfalso. apply N. apply in_map_iff. exists (tag, pc). auto.
Qed.

Example select_ex : select_target 12 [(1, 10); (4, 40); (9, 90)] 77 4 = Some 40 /\
  select_target 12 [(1, 10); (4, 40); (9, 90)] 77 5 = Some 77.
Proof. split; reflexivity. Qed.

(** The table of a union type with one field is empty, and the interpreter stops on a failed
    assertion (lib/interpret.c:168; lib/typecheck.c makes such tables for
    [x.?(a: e)]). *)
Theorem select_empty_crashes : forall num_tags default tag, select_target num_tags [] default tag = None.
Proof. reflexivity. Qed.

(** The interpreter does not look at num_tags: whatever it is, as long as it is above the tag
    of the object, the same instruction is next.  (The code from lib/aarch64.c does look at
    it.) *)
Theorem num_tags_not_read : forall callf blk statics args c n n' targets default pc l s,
  exec callf blk statics args (ISelect c n targets default) pc l s <> Stop Crash s ->
  exec callf blk statics args (ISelect c n' targets default) pc l s <> Stop Crash s ->
  exec callf blk statics args (ISelect c n targets default) pc l s = exec callf blk statics args (ISelect c n' targets default) pc l s.
Proof.
  intros callf blk statics args c n n' targets default pc l s. cbn [exec].
  destruct (get statics args l c) as [o|]; auto. destruct (strict_value (refs s) o) as [w| |]; auto. destruct w; auto.
  unfold select_target. destruct targets; auto. destruct (tag <? n), (tag <? n'); auto; intros A B; [destruct B|destruct A]; reflexivity.
Qed.

(** ** The interpreter is a good function to run *)
Section instance.
  Notation cval := (val code).

  Lemma do_ops_refs : forall block ops (s : cst), refs (do_ops block ops s) = refs s.
  Proof. induction ops as [|op ops IH]; intros s; cbn; auto. unfold do_ops in IH. cbn in IH. rewrite IH. reflexivity. Qed.
  Lemma do_ops_depth : forall block ops (s : cst), depth (do_ops block ops s) = depth s.
  Proof. induction ops as [|op ops IH]; intros s; cbn; auto. unfold do_ops in IH. cbn in IH. rewrite IH. reflexivity. Qed.

  (** One instruction with two ways to call functions. *)
  Definition step_extends (r r' : step_res) : Prop :=
    match r with Stop Timeout _ => True | _ => r' = r end.

  Lemma exec_extends : forall c c' block statics args i pc l s, extends c c' ->
    step_extends (exec c block statics args i pc l s) (exec c' block statics args i pc l s).
  Proof.
    intros c c' block statics args i pc l s E.
    assert (Rf : forall r, step_extends r r) by (intros [|[]]; cbn; auto).
    destruct i; cbn [exec]; try apply Rf.
    destruct (get statics args l func); [|apply Rf]. destruct (gets statics args l args0); [|apply Rf].
    destruct (dest <? length l); [|apply Rf]. specialize (E s v l0). destruct (c s v l0) as [o s'].
    destruct o; try (rewrite E by (intro; discriminate)); try apply Rf. cbn. auto.
  Qed.

  Lemma loop_extends : forall c c' block statics args k is pc l s, extends c c' ->
    done (loop c block statics args k is pc l s) ->
    loop c' block statics args k is pc l s = loop c block statics args k is pc l s.
  Proof.
    intros c c' block statics args k. induction k; intros is pc l s E D; cbn in *; auto.
    destruct (nth_error is pc) as [[ops i]|]; auto.
    pose proof (exec_extends c c' block statics args i pc l (do_ops block ops s) E) as X.
    destruct (exec c block statics args i pc l (do_ops block ops s)) as [pc1 l1 s1|o s1].
    - cbn in X. rewrite X. apply IHk; auto.
    - destruct o; cbn in X; try (rewrite X; reflexivity). exfalso; apply D; reflexivity.
  Qed.

  Definition step_depth (s : cst) (r : step_res) : Prop :=
    match r with
    | Next _ _ s' => depth s' = depth s
    | Stop (Ret _) s' | Stop (Tail _ _) s' | Stop Abort s' => depth s' = depth s
    | _ => True
    end.

  Lemma assign_depth : forall (s : cst) r v s', assign_ref s r v = Some (Some s') -> depth s' = depth s.
  Proof.
    intros s r v s' H. unfold assign_ref in H.
    destruct r; try discriminate. destruct (unwrap_fuel _ _ v) as [w|]; [|discriminate].
    destruct w; try (injection H as <-; reflexivity).
    destruct (l0 =? l); [discriminate|]. injection H as <-; reflexivity.
  Qed.

  Lemma put_depth : forall pc dest x l s s0, depth s = depth s0 -> step_depth s0 (put pc dest x l s).
  Proof. intros. unfold put. destruct (dest <? length l); cbn; auto. Qed.

  Lemma fail_depth : forall dest l s s0, depth s = depth s0 -> step_depth s0 (fail dest l s).
  Proof. intros. unfold fail. destruct (dest <? length l); cbn; auto. Qed.

  Lemma exec_depth : forall c block statics args i pc l s, balanced c ->
    step_depth s (exec c block statics args i pc l s).
  Proof.
    intros c block statics args i pc l s Bc.
    destruct i; cbn [exec];
      repeat match goal with
      | |- step_depth _ (put _ _ _ _ _) => apply put_depth; auto
      | |- step_depth _ (fail _ _ _) => apply fail_depth; auto
      | |- context [match ?x with _ => _ end] =>
        lazymatch x with
        | c _ _ _ => let E := fresh in pose proof (Bc s v l0) as E; destruct (c s v l0) as [[] ?]; cbn in *; auto
        | _ => destruct x eqn:?
        end
      | |- _ => progress (cbn; auto)
      end.
    all: try solve [eapply assign_depth; eauto].
    all: unfold new_ref in *; injection Heqp as <- <-; reflexivity.
  Qed.

  Lemma loop_depth : forall c block statics args k is pc l s, balanced c ->
    match loop c block statics args k is pc l s with
    | (Ret _, s') | (Abort, s') | (Tail _ _, s') => depth s' = depth s
    | _ => True
    end.
  Proof.
    intros c block statics args k. induction k; intros is pc l s Bc; cbn; auto.
    destruct (nth_error is pc) as [[ops i]|]; auto.
    pose proof (exec_depth c block statics args i pc l (do_ops block ops s) Bc) as X.
    destruct (exec c block statics args i pc l (do_ops block ops s)) as [pc1 l1 s1|o s1].
    - cbn in X. rewrite do_ops_depth in X. specialize (IHk is pc1 l1 s1 Bc).
      destruct (loop c block statics args k is pc1 l1 s1) as [[]]; congruence.
    - cbn in X. rewrite do_ops_depth in X. destruct o; auto.
  Qed.

  (** Related steps. *)
  Definition regs_eqv := Forall2 (@oeqv code).
  Inductive step_eqv : step_res -> step_res -> Prop :=
  | step_next pc l l' s s' : regs_eqv l l' -> st_eqv s s' -> step_eqv (Next pc l s) (Next pc l' s')
  | step_stop o o' s s' : out_eqv o o' -> st_eqv s s' -> step_eqv (Stop o s) (Stop o' s').

  Lemma F2_set_nth : forall {X Y} (P : X -> Y -> Prop) n l l' x y, Forall2 P l l' -> P x y ->
    Forall2 P (set_nth n x l) (set_nth n y l').
  Proof.
    induction n; intros l l' x y H Hp; destruct H; cbn; auto.
  Qed.

  Section eqv.
    Variables (statics statics' args args' : list cval).
    Hypothesis Hst : Forall2 eqv statics statics'.
    Hypothesis Har : Forall2 eqv args args'.

    Lemma get_eqv : forall l l' v, regs_eqv l l' -> oeqv (get statics args l v) (get statics' args' l' v).
    Proof.
      intros l l' v Hl. destruct v; cbn.
      - destruct (nth_error statics i) eqn:E.
        + destruct (F2_nth _ _ _ _ _ Hst E) as [y [-> Hy]]. constructor; auto.
        + rewrite (F2_nth_none _ _ _ _ Hst E). constructor.
      - destruct (nth_error args i) eqn:E.
        + destruct (F2_nth _ _ _ _ _ Har E) as [y [-> Hy]]. constructor; auto.
        + rewrite (F2_nth_none _ _ _ _ Har E). constructor.
      - destruct (nth_error l i) eqn:E.
        + destruct (F2_nth _ _ _ _ _ Hl E) as [y [-> Hy]]. inversion Hy; subst; constructor; auto.
        + rewrite (F2_nth_none _ _ _ _ Hl E). constructor.
    Qed.

    Lemma gets_eqv : forall l l' vs, regs_eqv l l' ->
      match gets statics args l vs, gets statics' args' l' vs with
      | Some xs, Some ys => Forall2 eqv xs ys
      | None, None => True
      | _, _ => False
      end.
    Proof.
      intros l l' vs Hl. induction vs as [|v vs IH]; cbn; auto.
      pose proof (get_eqv l l' v Hl) as G. inversion G; subst; auto.
      destruct (gets statics args l vs), (gets statics' args' l' vs); auto.
    Qed.

    Lemma put_eqv : forall pc dest x x' l l' s s', regs_eqv l l' -> eqv x x' -> st_eqv s s' ->
      step_eqv (put pc dest x l s) (put pc dest x' l' s').
    Proof.
      intros pc dest x x' l l' s s' Hl Hx Hs. unfold put. rewrite <- (F2_length _ _ _ Hl).
      destruct (dest <? length l); constructor; auto; [|constructor].
      apply F2_set_nth; auto. constructor; auto.
    Qed.

    Lemma fail_eqv : forall dest l l' s s', regs_eqv l l' -> st_eqv s s' -> step_eqv (fail dest l s) (fail dest l' s').
    Proof.
      intros dest l l' s s' Hl Hs. unfold fail. rewrite <- (F2_length _ _ _ Hl).
      destruct (dest <? length l); constructor; auto; constructor.
    Qed.

    Lemma list_value_eqv : forall xs xs' : list cval, Forall2 eqv xs xs' -> eqv (list_value xs) (list_value xs').
    Proof. induction 1; cbn; constructor; constructor; auto. Qed.

    Lemma literal_eqv : forall ls, eqv (@literal_value code ls) (literal_value ls).
    Proof.
      intros ls. apply list_value_eqv. induction ls; cbn; auto. constructor; auto. constructor. constructor. auto.
    Qed.

    Lemma unwrap_eqv : forall (s s' : cst) v v', st_eqv s s' -> eqv v v' ->
      oeqv (unwrap_fuel (length (refs s)) (refs s) v) (unwrap_fuel (length (refs s')) (refs s') v').
    Proof.
      intros s s' v v' Hs. rewrite <- (F2_length _ _ _ Hs).
      generalize (length (refs s)) as k. intros k; revert v v'.
      induction k; intros v v' Hv; inversion Hv; subst; cbn; try (constructor; auto; fail);
        destruct (nth_error (refs s) l) as [o|] eqn:E.
      - destruct (F2_nth _ _ _ _ _ Hs E) as [o' [E' Ho]]. rewrite E'. inversion Ho; repeat constructor.
      - rewrite (F2_nth_none _ _ _ _ Hs E). constructor.
      - destruct (F2_nth _ _ _ _ _ Hs E) as [o' [E' Ho]]. rewrite E'. inversion Ho; subst; [repeat constructor|]. auto.
      - rewrite (F2_nth_none _ _ _ _ Hs E). constructor.
    Qed.

    Lemma assign_eqv : forall (s s' : cst) r r' v v', st_eqv s s' -> eqv r r' -> eqv v v' ->
      match assign_ref s r v, assign_ref s' r' v' with
      | Some (Some s1), Some (Some s1') => st_eqv s1 s1'
      | Some None, Some None | None, None => True
      | _, _ => False
      end.
    Proof.
      intros s s' r r' v v' Hs Hr Hv. unfold assign_ref.
      pose proof (unwrap_eqv s s' v v' Hs Hv) as U.
      inversion Hr; subst; auto.
      destruct (unwrap_fuel (length (refs s)) (refs s) v) as [w|], (unwrap_fuel (length (refs s')) (refs s') v') as [w'|];
        inversion U; subst; auto.
      assert (G : st_eqv (mk_st (set_nth l (Some w) (refs s)) (depth s) (prof s)) (mk_st (set_nth l (Some w') (refs s')) (depth s') (prof s'))).
      { unfold st_eqv. cbn. apply F2_set_nth; auto. }
      destruct H1; auto. destruct (l0 =? l); auto.
    Qed.

    Variables (c : callf code) (ch : nat -> callf code).
    Hypothesis Hch : forall n m, n <= m -> extends (ch n) (ch m).
    Hypothesis Hc : forall s s' f f' xs xs', st_eqv s s' -> eqv f f' -> Forall2 eqv xs xs' ->
         done (c s f xs) -> exists m, res_eqv (c s f xs) (ch m s' f' xs').

    Ltac stop := exists 0; constructor; [constructor|]; auto.
    Lemma exec_eqv : forall block i pc l l' s s', regs_eqv l l' -> st_eqv s s' ->
      (exists s0, exec c block statics args i pc l s = Stop Timeout s0) \/
      exists m, step_eqv (exec c block statics args i pc l s) (exec (ch m) block statics' args' i pc l' s').
    Proof.
      intros block i pc l l' s s' Hl Hs.
      destruct i.
      - right; exists 0; cbn [exec]. pose proof (gets_eqv l l' args0 Hl) as G.
        destruct (gets statics args l args0), (gets statics' args' l' args0); try contradiction.
        + apply put_eqv; auto. constructor; auto.
        + constructor; auto. constructor.
      - right; exists 0; cbn [exec]. pose proof (get_eqv l l' arg Hl) as G. inversion G; subst.
        + constructor; auto. constructor.
        + apply put_eqv; auto. constructor; auto.
      - right; exists 0; cbn [exec]. pose proof (get_eqv l l' obj Hl) as G. inversion G; subst.
        + constructor; auto. constructor.
        + pose proof (strict_sim _ _ _ _ _ Hs H1) as S. inversion S as [w w' Hw E1 E2|E1 E2|E1 E2]; try (constructor; auto; constructor); try (apply fail_eqv; auto).
          inversion Hw; subst; try (constructor; auto; constructor).
          * destruct is_struct; [|constructor; auto; constructor].
            destruct (nth_error fs tag) eqn:En.
            -- destruct (F2_nth _ _ _ _ _ H2 En) as [y [-> Hy]]. apply put_eqv; auto.
            -- rewrite (F2_nth_none _ _ _ _ H2 En). constructor; auto; constructor.
          * destruct is_struct; [constructor; auto; constructor|].
            destruct (t =? tag); [apply put_eqv; auto|apply fail_eqv; auto].
      - right; exists 0; cbn [exec]. pose proof (get_eqv l l' condition Hl) as G. inversion G; subst.
        + constructor; auto. constructor.
        + pose proof (strict_sim _ _ _ _ _ Hs H1) as S. inversion S as [w w' Hw E1 E2|E1 E2|E1 E2]; try (constructor; auto; constructor).
          inversion Hw; subst; try (constructor; auto; constructor).
          destruct (select_target num_tags targets default t); constructor; auto; constructor.
      - right; exists 0; constructor; auto.
      - right; exists 0; cbn [exec]. pose proof (gets_eqv l l' scope Hl) as G.
        destruct (gets statics args l scope), (gets statics' args' l' scope); try contradiction.
        + rewrite <- (F2_length _ _ _ G). destruct (code_num_statics c0 <=? length l0); [|constructor; auto; constructor].
          apply put_eqv; auto. constructor. apply F2_firstn; auto.
        + constructor; auto; constructor.
      - cbn [exec]. pose proof (get_eqv l l' func Hl) as G1. pose proof (gets_eqv l l' args0 Hl) as G2.
        destruct (get statics args l func) as [fv|] eqn:Ef.
        2: { right; exists 0; cbn [exec]. inversion G1; constructor; auto; constructor. }
        destruct (gets statics args l args0) as [xs|] eqn:Ex.
        2: { right; exists 0; cbn [exec]. inversion G1; destruct (gets statics' args' l' args0); try contradiction; constructor; auto; constructor. }
        inversion G1 as [|? fv' Hf E1 E2]; subst. destruct (gets statics' args' l' args0) as [xs'|] eqn:Ex'; try contradiction.
        rewrite <- (F2_length _ _ _ Hl). destruct (dest <? length l); [|right; exists 0; constructor; auto; constructor].
        specialize (Hc s s' fv fv' xs xs' Hs Hf G2).
        destruct (c s fv xs) as [o s1].
        destruct o; try (left; eexists; reflexivity); (destruct Hc as [m [Ho Hs1]]; [intro; discriminate|]);
          right; exists m; destruct (ch m s' fv' xs') as [o' s1']; cbn in Ho, Hs1; inversion Ho; subst;
          try (constructor; auto; constructor). apply put_eqv; auto.
      - right; exists 0; cbn [exec]. pose proof (get_eqv l l' func Hl) as G1. pose proof (gets_eqv l l' args0 Hl) as G2.
        inversion G1; subst; [constructor; auto; constructor|].
        pose proof (strict_sim _ _ _ _ _ Hs H1) as S. inversion S as [w w' Hw E1 E2|E1 E2|E1 E2]; try (constructor; auto; constructor).
        rewrite (num_args_eqv _ _ _ Hw). destruct (num_args_of w); [|constructor; auto; constructor].
        destruct (gets statics args l args0), (gets statics' args' l' args0); try contradiction; constructor; auto; constructor; auto.
      - right; exists 0; cbn [exec]. pose proof (get_eqv l l' source Hl) as G. inversion G; subst.
        + constructor; auto. constructor.
        + apply put_eqv; auto.
      - right; exists 0; cbn [exec new_ref]. apply put_eqv; auto.
        + rewrite <- (F2_length _ _ _ Hs). constructor.
        + unfold st_eqv. cbn. apply Forall2_app; auto. repeat constructor.
      - right; exists 0; cbn [exec]. pose proof (get_eqv l l' (Local ref) Hl) as G1. pose proof (get_eqv l l' value Hl) as G2.
        destruct G1 as [|v v' H1]; [constructor; auto; constructor|].
        destruct G2 as [|v0 v'0 H3]; [constructor; auto; constructor|].
        pose proof (assign_eqv s s' v v' v0 v'0 Hs H1 H3) as A0.
        destruct (assign_ref s v v0) as [[]|], (assign_ref s' v' v'0) as [[]|]; try contradiction; constructor; auto; constructor.
      - right; exists 0; cbn [exec]. pose proof (get_eqv l l' result Hl) as G. inversion G; subst; constructor; auto; constructor; auto.
      - right; exists 0; cbn [exec]. apply put_eqv; auto. constructor.
      - right; exists 0; cbn [exec]. pose proof (gets_eqv l l' args0 Hl) as G.
        destruct (gets statics args l args0), (gets statics' args' l' args0); try contradiction.
        + apply put_eqv; auto. apply list_value_eqv; auto.
        + constructor; auto. constructor.
      - right; exists 0; cbn [exec]. apply put_eqv; auto. apply literal_eqv.
      - right; exists 0; constructor; auto.
    Qed.

    Lemma loop_eqv : forall block k is pc l l' s s', regs_eqv l l' -> st_eqv s s' ->
      done (loop c block statics args k is pc l s) ->
      exists m, res_eqv (loop c block statics args k is pc l s) (loop (ch m) block statics' args' k is pc l' s').
    Proof.
      intros block k. induction k; intros is pc l l' s s' Hl Hs D; cbn in *.
      { exists 0. split; auto. constructor. }
      destruct (nth_error is pc) as [[ops i]|].
      2: { exists 0. split; auto. constructor. }
      assert (Hs1 : st_eqv (do_ops block ops s) (do_ops block ops s')).
      { unfold st_eqv. rewrite !do_ops_refs. exact Hs. }
      pose proof (exec_eqv block i pc l l' _ _ Hl Hs1) as X.
      destruct X as [[s0 E0]|[m Hm]]; [rewrite E0 in D; exfalso; apply D; reflexivity|].
      destruct (exec c block statics args i pc l (do_ops block ops s)) as [pc1 l1 s1|o s1].
      - inversion Hm as [? ? l2 ? s2 Hl2 Hs2 E1 E2|]; subst.
        destruct (IHk is pc1 l1 l2 s1 s2 Hl2 Hs2 D) as [m2 H2].
        exists (max m m2).
        pose proof (exec_extends (ch m) (ch (max m m2)) block statics' args' i pc l' (do_ops block ops s') (Hch _ _ (Nat.le_max_l _ _))) as Y.
        rewrite <- E2 in Y. cbn in Y. rewrite Y.
        rewrite (loop_extends (ch m2) (ch (max m m2)) block statics' args' k is pc1 l2 s2); auto.
        + apply Hch. lia.
        + apply (res_done _ _ _ H2).
      - exists m. inversion Hm; subst. split; auto.
    Qed.
  End eqv.

  Theorem interpret_good : good_run interpret.
  Proof.
    constructor.
    - intros c c' E b blk ss xs s D. apply loop_extends; auto.
    - intros c Bc b blk ss xs s. apply loop_depth; auto.
    - intros c ch Hch Hc b blk ss ss' xs xs' s s' Hs Hss Hxs D.
      apply loop_eqv; auto.
      induction (code_num_locals b); cbn; repeat constructor; auto.
  Qed.

  Lemma exec_poison : forall c block statics args i pc l s,
    (exists s0, exec c block statics args i pc l s = Stop Timeout s0 \/ exec c block statics args i pc l s = Stop Abort s0) \/
    exec (poison c) block statics args i pc l s = exec c block statics args i pc l s.
  Proof.
    intros c block statics args i pc l s.
    destruct i; try (right; reflexivity). cbn [exec].
    destruct (get statics args l func); auto. destruct (gets statics args l args0); auto.
    destruct (dest <? length l); auto. unfold poison. destruct (c s v l0) as [o s']. destruct o; auto. left. exists s'. auto.
  Qed.

  Theorem interpret_abort_strict : abort_strict interpret.
  Proof.
    intros c b blk ss xs s. unfold interpret. generalize (repeat (@None cval) (code_num_locals b)).
    generalize 0 as pc. generalize (length (code_instrs b)) as k. intros k; revert s.
    induction k; intros s pc l D N; cbn in *; auto.
    destruct (nth_error (code_instrs b) pc) as [[ops i]|]; auto.
    pose proof (exec_poison c blk ss xs i pc l (do_ops blk ops s)) as X.
    destruct X as [[s0 [E|E]]|E].
    - rewrite E in D. exfalso; apply D; reflexivity.
    - rewrite E in N. exfalso; apply N; reflexivity.
    - rewrite E. destruct (exec c blk ss xs i pc l (do_ops blk ops s)); auto.
  Qed.
End instance.

(** ** C17 and C18 for interpreted programs *)
Definition ireturns := returns interpret.

Theorem interpreted_call_split : forall s f xs ys,
  wfs s -> wfv f -> Forall wfv xs -> Forall wfv ys -> ys <> [] ->
  (forall r, ireturns s f (xs ++ ys) r -> exists r', in_two_steps interpret s f xs ys r' /\ res_eqv r r') /\
  (forall r, in_two_steps interpret s f xs ys r -> exists r', ireturns s f (xs ++ ys) r' /\ res_eqv r r').
Proof. exact (call_split _ _ interpret_good). Qed.

Theorem interpreted_call_frames : forall s f xs o s',
  ireturns s f xs (o, s') -> match o with Ret _ | Abort => depth s' = depth s | Tail _ _ => False | _ => True end.
Proof. exact (call_frames _ _ interpret_good). Qed.

Theorem interpreted_abort : forall s f xs o s', o <> Abort ->
  ireturns s f xs (o, s') -> returns (fun c => interpret (poison c)) s f xs (o, s').
Proof. exact (call_abort_strict _ _ interpret_good interpret_abort_strict). Qed.

(** A function of two arguments that makes the pair of them, given both arguments at once or
    one after the other. *)
Example pair_code : code := Code 2 0 1 0 [([], IStruct [Arg 0; Arg 1] 0); ([], IReturn (Local 0))].
Example split_ex : 
  let f := VFunc 2 pair_code 0 [] in
  let s := mk_st [] 0 [] in
  fst (icall 3 s f [VType; VStruct []]) = Ret (VStruct [VType; VStruct []]) /\
  (exists g, fst (icall 3 s f [VType]) = Ret g /\ fst (icall 3 s g [VStruct []]) = Ret (VStruct [VType; VStruct []])) /\
  wfv f /\ wfs s.
Proof.
  split; [reflexivity|]. split; [eexists; split; reflexivity|].
  split; constructor. constructor.
Qed.
