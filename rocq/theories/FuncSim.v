(** * The calling convention does not depend on how functions are executed.

    Two ways of running functions, [run1] on payloads [B1] and [run2] on payloads [B2], that
    do the same on related payloads make all calls do the same: same values, same errors,
    same references, same frames and the same profile. *)
From Coq Require Import List Arith Lia Bool.
From Verif Require Import FuncModel FuncProps CompileRel CompileCalls.
Import ListNotations.

Section sim.
  Variables B1 B2 : Type.
  (** The functions with [n] arguments and [k] statics that are the same. *)
  Variable prel : nat -> nat -> B1 -> B2 -> Prop.

  (** The same value. *)
  Inductive same_val : val B1 -> val B2 -> Prop :=
  | SStruct xs ys : Forall2 same_val xs ys -> same_val (VStruct xs) (VStruct ys)
  | SUnion t x y : same_val x y -> same_val (VUnion t x) (VUnion t y)
  | SFunc n b c k xs ys : prel n (length xs) b c -> Forall2 same_val xs ys -> same_val (VFunc n b k xs) (VFunc n c k ys)
  | SPapp n k f g xs ys : same_val f g -> Forall2 same_val xs ys -> same_val (VPapp n k f xs) (VPapp n k g ys)
  | SRef l : same_val (VRef l) (VRef l)
  | SType : same_val VType VType.

  Definition same_opt (o : option (val B1)) (p : option (val B2)) : Prop :=
    match o, p with Some x, Some y => same_val x y | None, None => True | _, _ => False end.

  (** The same state: references, frames and profile. *)
  Definition same_st (s : st B1) (t : st B2) : Prop :=
    Forall2 same_opt (refs s) (refs t) /\ depth s = depth t /\ prof s = prof t.

  Inductive same_out : out B1 -> out B2 -> Prop :=
  | SoRet x y : same_val x y -> same_out (Ret x) (Ret y)
  | SoTail f g xs ys : same_val f g -> Forall2 same_val xs ys -> same_out (Tail f xs) (Tail g ys)
  | SoAbort : same_out Abort Abort
  | SoTimeout : same_out Timeout Timeout.

  (** The same result, unless the first one is a crash. *)
  Definition same_res (r : res B1) (q : res B2) : Prop :=
    fst r = Crash \/ (same_out (fst r) (fst q) /\ same_st (snd r) (snd q)).

  Inductive same_strict : strict B1 -> strict B2 -> Prop :=
  | SsVal x y : same_val x y -> same_strict (SVal x) (SVal y)
  | SsUndef : same_strict SUndef SUndef
  | SsBad : same_strict SBad SBad.

  Lemma s_strict_fuel : forall k r r', Forall2 same_opt r r' -> forall x y, same_val x y ->
    same_strict (strict_fuel k r x) (strict_fuel k r' y).
  Proof.
    induction k; intros r r' F x y V; destruct V; cbn; try (repeat constructor; auto; fail).
    - pose proof (F2_nth_error _ _ _ F l) as H. destruct (nth_error r l) as [[a|]|], (nth_error r' l) as [[b|]|]; cbn in H; try contradiction; constructor.
    - pose proof (F2_nth_error _ _ _ F l) as H. destruct (nth_error r l) as [[a|]|], (nth_error r' l) as [[b|]|]; cbn in H; try contradiction; try constructor.
      apply IHk; auto.
  Qed.

  Lemma s_strict : forall s t x y, same_st s t -> same_val x y ->
    same_strict (strict_value (refs s) x) (strict_value (refs t) y).
  Proof. intros s t x y [H _] V. unfold strict_value. rewrite (F2_len _ _ _ H). apply s_strict_fuel; auto. Qed.

  Lemma s_new_ref : forall s t, same_st s t ->
    same_val (fst (new_ref s)) (fst (new_ref t)) /\ same_st (snd (new_ref s)) (snd (new_ref t)).
  Proof.
    intros s t [H [D P]]. cbn. rewrite (F2_len _ _ _ H). split; [constructor|]. split; cbn; auto.
    apply Forall2_app; auto. constructor; cbn; auto.
  Qed.

  Lemma s_unwrap : forall k r r', Forall2 same_opt r r' -> forall x y, same_val x y ->
    same_opt (unwrap_fuel k r x) (unwrap_fuel k r' y).
  Proof.
    induction k; intros r r' F x y V; destruct V; cbn; try (constructor; auto; fail).
    - pose proof (F2_nth_error _ _ _ F l) as H. destruct (nth_error r l) as [[a|]|], (nth_error r' l) as [[b|]|]; cbn in H; try contradiction; cbn; auto; constructor.
    - pose proof (F2_nth_error _ _ _ F l) as H. destruct (nth_error r l) as [[a|]|], (nth_error r' l) as [[b|]|]; cbn in H; try contradiction; cbn; auto; try constructor.
  Qed.

  Lemma s_assign : forall s t x y a b, same_st s t -> same_val x y -> same_val a b ->
    match assign_ref s x a, assign_ref t y b with
    | Some (Some s'), Some (Some t') => same_st s' t'
    | Some None, Some None => True
    | None, None => True
    | _, _ => False
    end.
  Proof.
    intros s t x y a b [H [D P]] V W. destruct V; cbn; auto.
    rewrite (F2_len _ _ _ H). pose proof (s_unwrap (length (refs t)) _ _ H _ _ W) as U.
    destruct (unwrap_fuel (length (refs t)) (refs s) a) as [u|], (unwrap_fuel (length (refs t)) (refs t) b) as [v|]; cbn in U; try contradiction; auto.
    destruct U; try (split; cbn; auto; apply F2_setnth; auto; cbn; constructor; auto; fail).
    destruct (l0 =? l); auto. split; cbn; auto. apply F2_setnth; auto. cbn. constructor.
  Qed.

  Lemma s_list : forall xs ys, Forall2 same_val xs ys -> same_val (list_value xs) (list_value ys).
  Proof. induction 1; cbn; repeat constructor; auto. Qed.

  Lemma s_literal : forall l, same_val (literal_value l) (literal_value l).
  Proof. intros l. apply s_list. induction l; cbn; constructor; auto. constructor. constructor. constructor. Qed.

  Lemma s_num_args : forall x y, same_val x y -> num_args_of x = num_args_of y.
  Proof. destruct 1; reflexivity. Qed.
  Lemma s_block : forall x y, same_val x y -> block_of x = block_of y.
  Proof. destruct 1; reflexivity. Qed.
  Lemma s_log : forall e s t, same_st s t -> same_st (log e s) (log e t).
  Proof. intros e s t [H [D P]]. split; [|split]; cbn; auto. congruence. Qed.
  Lemma s_push : forall s t, same_st s t -> same_st (push_frame s) (push_frame t).
  Proof. intros s t [H [D P]]. split; [|split]; cbn; auto. Qed.
  Lemma s_papp : forall f g f' g' xs ys, same_val f g -> same_val f' g' -> Forall2 same_val xs ys ->
    same_val (partial_apply f f' xs) (partial_apply g g' ys).
  Proof.
    intros f g f' g' xs ys V V' F. unfold partial_apply. rewrite (s_num_args _ _ V), (s_block _ _ V), (F2_len _ _ _ F).
    destruct (num_args_of g); constructor; auto.
  Qed.
  Lemma s_pop : forall o o' s t, same_out o o' -> same_st s t -> same_res (pop_with o s) (pop_with o' t).
  Proof.
    intros o o' s t O [H [D P]]. unfold pop_with, pop_frame. rewrite D. destruct (depth t) eqn:E.
    - left. reflexivity.
    - right. split; cbn; auto. split; auto.
  Qed.

  Notation callf1 := (st B1 -> val B1 -> list (val B1) -> res B1).
  Notation callf2 := (st B2 -> val B2 -> list (val B2) -> res B2).
  Definition same_call (call1 : callf1) (call2 : callf2) : Prop :=
    forall s t f g xs ys, same_st s t -> same_val f g -> Forall2 same_val xs ys -> same_res (call1 s f xs) (call2 t g ys).

  Variable run1 : callf1 -> B1 -> nat -> list (val B1) -> list (val B1) -> st B1 -> res B1.
  Variable run2 : callf2 -> B2 -> nat -> list (val B2) -> list (val B2) -> st B2 -> res B2.
  Hypothesis runs : forall call1 call2, same_call call1 call2 -> forall b c k ss ts xs ys s t,
    prel (length xs) (length ss) b c -> Forall2 same_val ss ts -> Forall2 same_val xs ys -> same_st s t ->
    same_res (run1 call1 b k ss xs s) (run2 call2 c k ts ys t).

  Lemma s_run_fn : forall call1 call2, same_call call1 call2 ->
    forall f g xs ys na s t, same_val f g -> num_args_of f = Some na -> na <= length xs -> Forall2 same_val xs ys -> same_st s t ->
    same_res (run_fn run1 call1 s f xs) (run_fn run2 call2 t g ys).
  Proof.
    intros call1 call2 Hc f g xs ys na s t V N L F R. destruct V; cbn in N; try discriminate; cbn [run_fn].
    - injection N as ->. apply runs; auto.
      + rewrite firstn_length, Nat.min_l by lia. auto.
      + apply F2_first. auto.
    - apply Hc; auto. apply Forall2_app; auto. apply F2_first. auto.
  Qed.

  Theorem same_calls : forall n, same_call (call run1 n) (call run2 n) /\ same_call (tail_call run1 n) (tail_call run2 n).
  Proof.
    induction n as [|n [IH1 IH2]].
    - split; intros s t f g xs ys R V F; right; cbn; split; auto; constructor.
    - split; intros s t f g xs ys R V F.
      + rewrite !call_S. destruct (s_strict _ _ _ _ R V) as [a b Vab| |]; try (right; split; cbn; [constructor|auto]; fail); [|left; reflexivity].
        rewrite (s_num_args _ _ Vab). destruct (num_args_of b) as [na|] eqn:Na; [|left; reflexivity].
        rewrite (F2_len _ _ _ F). destruct (length ys <? na) eqn:L.
        * right. split; cbn [fst snd]; auto. constructor. apply s_papp; auto.
        * apply Nat.ltb_ge in L. rewrite (s_block _ _ Vab).
          assert (Rr : same_res (run_fn run1 (call run1 n) (push_frame (log (PEnter (block_of b)) s)) a xs)
                            (run_fn run2 (call run2 n) (push_frame (log (PEnter (block_of b)) t)) b ys)).
          { apply (s_run_fn _ _ IH1) with (na := na); auto.
            - rewrite (s_num_args _ _ Vab). auto.
            - rewrite (F2_len _ _ _ F). auto.
            - apply s_push, s_log. auto. }
          destruct (run_fn run1 _ _ a xs) as [o1 s1], (run_fn run2 _ _ b ys) as [o2 t1].
          assert (Fin : forall q1 q2, same_res q1 q2 -> same_res (let '(r', s3) := q1 in (r', log PExit s3)) (let '(r', s3) := q2 in (r', log PExit s3))).
          { intros [p1 p2] [q1 q2] [H|[H1 H2]]; [left; exact H|]. right. split; cbn; auto. apply s_log. auto. }
          apply Fin. clear Fin. destruct Rr as [O|[O Rs]]; cbn [fst snd] in O; [subst o1; left; reflexivity|]. cbn [fst snd] in Rs.
          pose proof (F2_skip same_val na _ _ F) as Fu.
          destruct O as [u v Vuv|g1 g2 as1 as2 Vg Vas| |].
          -- destruct Fu as [|u1 v1 us vs Vu1 Fus].
             ++ apply s_pop; auto. constructor. auto.
             ++ unfold pop_frame. destruct Rs as [Rs1 [Rs2 Rs3]]. rewrite Rs2. destruct (depth t1) eqn:Ed; [left; reflexivity|].
                apply IH1; auto. split; [|split]; cbn; auto.
          -- apply IH2; auto. apply Forall2_app; auto.
          -- apply s_pop; auto. constructor.
          -- right. split; cbn; auto. constructor.
      + rewrite !tail_call_S. cbv zeta. destruct (s_strict _ _ _ _ R V) as [a b Vab| |]; try (left; reflexivity).
        rewrite (s_num_args _ _ Vab). destruct (num_args_of b) as [na|] eqn:Na; [|left; reflexivity].
        rewrite (F2_len _ _ _ F). destruct (length ys <? na) eqn:L.
        * apply s_pop; auto. constructor. apply s_papp; auto.
        * apply Nat.ltb_ge in L. rewrite (s_block _ _ Vab).
          assert (Rr : same_res (run_fn run1 (call run1 n) (log (PReplace (block_of b)) s) a xs)
                            (run_fn run2 (call run2 n) (log (PReplace (block_of b)) t) b ys)).
          { apply (s_run_fn _ _ IH1) with (na := na); auto.
            - rewrite (s_num_args _ _ Vab). auto.
            - rewrite (F2_len _ _ _ F). auto.
            - apply s_log. auto. }
          destruct (run_fn run1 _ _ a xs) as [o1 s1], (run_fn run2 _ _ b ys) as [o2 t1].
          destruct Rr as [O|[O Rs]]; cbn [fst snd] in O; [subst o1; left; reflexivity|]. cbn [fst snd] in Rs.
          pose proof (F2_skip same_val na _ _ F) as Fu.
          destruct O as [u v Vuv|g1 g2 as1 as2 Vg Vas| |].
          -- destruct Fu as [|u1 v1 us vs Vu1 Fus].
             ++ apply s_pop; auto. constructor. auto.
             ++ assert (Rc := IH1 s1 t1 u v (u1 :: us) (v1 :: vs) Rs Vuv (Forall2_cons _ _ Vu1 Fus)).
                destruct (call run1 n s1 u (u1 :: us)) as [o1 s2], (call run2 n t1 v (v1 :: vs)) as [o2 t2].
                destruct Rc as [O2|[O2 R2]]; cbn [fst snd] in O2; [subst o1; left; reflexivity|]. cbn [fst snd] in R2.
                destruct O2.
                ** apply s_pop; auto. constructor. auto.
                ** right. split; auto. cbn. constructor; auto.
                ** apply s_pop; auto. constructor.
                ** right. split; auto. constructor.
          -- apply IH2; auto. apply Forall2_app; auto.
          -- apply s_pop; auto. constructor.
          -- right. split; cbn; auto. constructor.
  Qed.
End sim.

Arguments same_val {B1 B2}. Arguments same_opt {B1 B2}. Arguments same_st {B1 B2}. Arguments same_out {B1 B2}.
Arguments same_res {B1 B2}. Arguments same_strict {B1 B2}. Arguments same_call {B1 B2}.
