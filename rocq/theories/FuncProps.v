(** * C17, C18: the calling convention. *)
From Coq Require Import List Arith Lia Bool.
From Verif Require Import FuncModel.
Import ListNotations.

(** ** Specification.  Two function values are the same if they are the same function
    applied to the same arguments so far, however these arguments were grouped; other
    values if they have the same shape. *)
Section spec.
  Variable B : Type.
  Notation val := (val B).
  Notation st := (st B).
  Notation out := (out B).
  Notation res := (res B).

  Definition is_papp (v : val) : bool := match v with VPapp _ _ _ _ => true | _ => false end.

  (** [flat k f xs h zs]: the partial application of [f] to [xs] that waits for [k] more
      arguments is [h] applied to [zs], where [h] is not a partial application. *)
  Inductive flat : nat -> val -> list val -> val -> list val -> Prop :=
  | flat_head k f xs : is_papp f = false -> flat k f xs f xs
  | flat_papp k b f xs ys h zs :
      flat (k + length ys) f xs h zs ->
      flat k (VPapp (k + length ys) b f xs) ys h (zs ++ ys).

  Inductive eqv : val -> val -> Prop :=
  | eqv_struct fs fs' : Forall2 eqv fs fs' -> eqv (VStruct fs) (VStruct fs')
  | eqv_union t a a' : eqv a a' -> eqv (VUnion t a) (VUnion t a')
  | eqv_func n b blk ss ss' : Forall2 eqv ss ss' -> eqv (VFunc n b blk ss) (VFunc n b blk ss')
  | eqv_papp k b b' f f' xs xs' h h' zs zs' :
      flat k f xs h zs -> flat k f' xs' h' zs' ->
      eqv h h' -> Forall2 eqv zs zs' -> eqv (VPapp k b f xs) (VPapp k b' f' xs')
  | eqv_ref l : eqv (VRef l) (VRef l)
  | eqv_type : eqv VType VType.

  Inductive oeqv : option val -> option val -> Prop :=
  | oeqv_none : oeqv None None
  | oeqv_some v v' : eqv v v' -> oeqv (Some v) (Some v').

  (** The same store: the targets of all references are the same. *)
  Definition st_eqv (s s' : st) : Prop := Forall2 oeqv (refs s) (refs s').

  Inductive out_eqv : out -> out -> Prop :=
  | out_ret v v' : eqv v v' -> out_eqv (Ret v) (Ret v')
  | out_tail f f' xs xs' : eqv f f' -> Forall2 eqv xs xs' -> out_eqv (Tail f xs) (Tail f' xs')
  | out_abort : out_eqv Abort Abort
  | out_crash : out_eqv Crash Crash.

  Definition res_eqv (r r' : res) : Prop := out_eqv (fst r) (fst r') /\ st_eqv (snd r) (snd r').

  Definition callf := st -> val -> list val -> res.
  Definition runf := callf -> B -> nat -> list val -> list val -> st -> res.

  Definition done (r : res) : Prop := fst r <> Timeout.

  (** [c'] agrees with [c] where [c] has a result. *)
  Definition extends (c c' : callf) : Prop := forall s f xs, done (c s f xs) -> c' s f xs = c s f xs.

  (** Calls that return or abort leave the frame stack as they found it, and never return
      the tail call sentinel. *)
  Definition balanced (c : callf) : Prop :=
    forall s f xs,
      match c s f xs with
      | (Ret _, s') | (Abort, s') => depth s' = depth s
      | (Tail _ _, _) => False
      | _ => True
      end.

  (** What the protocol asks of the functions it runs: they have results of their own (no
      dependence on the model's fuel); they leave the frame stack as they found it if the
      calls they make do; and they do not look inside function values nor at the depth of
      the frame stack or the profile, other than by calling functions. *)
  Record good_run (run : runf) : Prop := {
    run_extends : forall c c', extends c c' -> forall b blk ss xs s,
      done (run c b blk ss xs s) -> run c' b blk ss xs s = run c b blk ss xs s;
    run_balanced : forall c, balanced c -> forall b blk ss xs s,
      match run c b blk ss xs s with
      | (Ret _, s') | (Abort, s') | (Tail _ _, s') => depth s' = depth s
      | _ => True
      end;
    run_eqv : forall c (ch : nat -> callf),
      (forall n m, n <= m -> extends (ch n) (ch m)) ->
      (forall s s' f f' xs xs', st_eqv s s' -> eqv f f' -> Forall2 eqv xs xs' ->
         done (c s f xs) -> exists m, res_eqv (c s f xs) (ch m s' f' xs')) ->
      forall b blk ss ss' xs xs' s s',
        st_eqv s s' -> Forall2 eqv ss ss' -> Forall2 eqv xs xs' ->
        done (run c b blk ss xs s) ->
        exists m, res_eqv (run c b blk ss xs s) (run (ch m) b blk ss' xs' s') }.
End spec.

Arguments is_papp {B}. Arguments flat {B}. Arguments eqv {B}. Arguments oeqv {B}. Arguments st_eqv {B}.
Arguments out_eqv {B}. Arguments res_eqv {B}. Arguments done {B}. Arguments extends {B}.
Arguments balanced {B}. Arguments good_run {B}.

Section protocol.
  Variable B : Type.
  Variable run : runf B.
  Hypothesis R : good_run run.
  Notation val := (val B).
  Notation st := (st B).
  Notation call := (call run).
  Notation tail_call := (tail_call run).

  Lemma call_S : forall n s f args, call (S n) s f args =
      match strict_value (refs s) f with
      | SUndef => (Abort, s)
      | SBad => (Crash, s)
      | SVal fn =>
        match num_args_of fn with
        | None => (Crash, s)
        | Some na =>
          if length args <? na then (Ret (partial_apply fn f args), s)
          else
            let unused := skipn na args in
            let '(r, s2) := run_fn run (call n) (push_frame (log (PEnter (block_of fn)) s)) fn args in
            let '(r', s3) :=
              match r with
              | Tail g ys => tail_call n s2 g (ys ++ unused)
              | Ret v =>
                match unused with
                | [] => pop_with (Ret v) s2
                | _ :: _ =>
                  match pop_frame s2 with
                  | Some s2' => call n s2' v unused
                  | None => (Crash, s2)
                  end
                end
              | Abort => pop_with Abort s2
              | o => (o, s2)
              end in
            (r', log PExit s3)
        end
      end.
  Proof. reflexivity. Qed.

  Lemma tail_call_S : forall n s g xs, tail_call (S n) s g xs =
      match strict_value (refs s) g with
      | SVal fn =>
        match num_args_of fn with
        | None => (Crash, s)
        | Some na =>
          if length xs <? na then pop_with (Ret (partial_apply fn g xs)) s
          else
            let unused := skipn na xs in
            let '(r, s2) := run_fn run (call n) (log (PReplace (block_of fn)) s) fn xs in
            match r with
            | Tail g' ys => tail_call n s2 g' (ys ++ unused)
            | Ret v =>
              match unused with
              | [] => pop_with (Ret v) s2
              | _ :: _ =>
                let '(r', s3) := call n s2 v unused in
                match r' with
                | Ret _ | Abort => pop_with r' s3
                | o => (o, s3)
                end
              end
            | Abort => pop_with Abort s2
            | o => (o, s2)
            end
        end
      | _ => (Crash, s)
      end.
  Proof. reflexivity. Qed.

  (** ** Fuel *)
  Lemma run_fn_extends : forall c c', extends c c' -> forall s fn xs,
    done (run_fn run c s fn xs) -> run_fn run c' s fn xs = run_fn run c s fn xs.
  Proof.
    intros c c' E s fn xs D. destruct fn; cbn in *; auto.
    apply (run_extends _ _ R); auto.
  Qed.

  Definition t_extends (c c' : callf B) := forall s f xs, done (c s f xs) -> c' s f xs = c s f xs.

  Lemma call_extends : forall n,
    extends (call n) (call (S n)) /\ extends (tail_call n) (tail_call (S n)).
  Proof.
    induction n as [|n [IHc IHt]].
    - split; intros s f xs D; exfalso; apply D; reflexivity.
    - split; intros s f xs D.
      + rewrite call_S in D |- *. rewrite call_S. remember (S n) as n1. cbv zeta in D |- *.
        destruct (strict_value (refs s) f) as [fn| |]; auto.
        destruct (num_args_of fn) as [na|]; auto.
        destruct (length xs <? na); auto.
        destruct (run_fn run (call n) (push_frame (log (PEnter (block_of fn)) s)) fn xs) as [r s2] eqn:E.
        assert (D' : done (run_fn run (call n) (push_frame (log (PEnter (block_of fn)) s)) fn xs)).
        { rewrite E. intros H. cbn in H. subst r. apply D. reflexivity. }
        assert (E1 : run_fn run (call n1) (push_frame (log (PEnter (block_of fn)) s)) fn xs = (r, s2)).
        { rewrite <- E. subst n1. apply run_fn_extends; auto. }
        rewrite E1. clear D' E E1.
        destruct r; auto.
        * destruct (skipn na xs); auto. destruct (pop_frame s2); auto.
          rewrite (IHc s0); auto.
          intros H. apply D. destruct (call n s0 v (v0 :: l)); cbn in *. auto.
        * rewrite (IHt s2); auto.
          intros H. apply D. destruct (tail_call n s2 f0 (args ++ skipn na xs)); cbn in *. auto.
      + rewrite tail_call_S in D |- *. rewrite tail_call_S. remember (S n) as n1. cbv zeta in D |- *.
        destruct (strict_value (refs s) f) as [fn| |]; auto.
        destruct (num_args_of fn) as [na|]; auto.
        destruct (length xs <? na); auto.
        destruct (run_fn run (call n) (log (PReplace (block_of fn)) s) fn xs) as [r s2] eqn:E.
        assert (D' : done (run_fn run (call n) (log (PReplace (block_of fn)) s) fn xs)).
        { rewrite E. intros H. cbn in H. subst r. apply D. reflexivity. }
        assert (E1 : run_fn run (call n1) (log (PReplace (block_of fn)) s) fn xs = (r, s2)).
        { rewrite <- E. subst n1. apply run_fn_extends; auto. }
        rewrite E1. clear D' E E1.
        destruct r; auto.
        destruct (skipn na xs); auto.
          rewrite (IHc s2); auto.
          intros H. apply D. destruct (call n s2 v (v0 :: l)) as [[]]; cbn in *; congruence.
  Qed.

  Lemma extends_le : forall n m, n <= m -> extends (call n) (call m) /\ extends (tail_call n) (tail_call m).
  Proof.
    intros n m L. induction L as [|m L [IHc IHt]].
    - split; intros s f xs _; reflexivity.
    - destruct (call_extends m) as [C T].
      split; intros s f xs D.
      + rewrite (C s f xs); [apply IHc; auto|]. rewrite (IHc s f xs); auto.
      + rewrite (T s f xs); [apply IHt; auto|]. rewrite (IHt s f xs); auto.
  Qed.

  (** ** Frames (C18) *)
  Lemma pop_with_depth : forall o (s : st) r s', depth s = S r -> pop_with o s = s' ->
    fst s' = o /\ depth (snd s') = r /\ refs (snd s') = refs s.
  Proof.
    intros o s r s' Hd <-. unfold pop_with, pop_frame. rewrite Hd. cbn. auto.
  Qed.

  Lemma run_fn_balanced : forall c, balanced c -> forall s fn xs,
    match run_fn run c s fn xs with
    | (Ret _, s') | (Abort, s') | (Tail _ _, s') => depth s' = depth s
    | _ => True
    end.
  Proof.
    intros c Bc s fn xs. destruct fn; cbn; auto.
    - apply (run_balanced _ _ R); auto.
    - specialize (Bc s fn (args ++ firstn num_args xs)).
      destruct (c s fn (args ++ firstn num_args xs)) as [[]]; auto. contradiction.
  Qed.

  Lemma call_balanced : forall n,
    balanced (call n) /\
    (forall s f xs d, depth s = S d ->
      match tail_call n s f xs with
      | (Ret _, s') | (Abort, s') => depth s' = d
      | (Tail _ _, _) => False
      | _ => True
      end).
  Proof.
    induction n as [|n [IHc IHt]].
    - split; [intros s f xs|intros s f xs d]; cbn; auto.
    - split.
      + intros s f xs. rewrite call_S; cbv zeta.
        destruct (strict_value (refs s) f) as [fn| |]; auto.
        destruct (num_args_of fn) as [na|]; auto.
        destruct (length xs <? na); auto.
        pose proof (run_fn_balanced _ IHc (push_frame (log (PEnter (block_of fn)) s)) fn xs) as Hr.
        destruct (run_fn run (call n) (push_frame (log (PEnter (block_of fn)) s)) fn xs) as [r s2].
        destruct r; auto; cbn [push_frame log depth] in Hr.
        * destruct (skipn na xs).
          -- unfold pop_with, pop_frame. rewrite Hr. cbn. auto.
          -- unfold pop_frame. rewrite Hr.
             specialize (IHc (mk_st (refs s2) (depth s) (prof s2)) v (v0 :: l)).
             destruct (call n (mk_st (refs s2) (depth s) (prof s2)) v (v0 :: l)) as [[]]; cbn in *; auto.
        * specialize (IHt s2 f0 (args ++ skipn na xs) (depth s) Hr).
          destruct (tail_call n s2 f0 (args ++ skipn na xs)) as [[]]; cbn in *; auto.
        * unfold pop_with, pop_frame. rewrite Hr. cbn. auto.
      + intros s f xs d Hd. rewrite tail_call_S; cbv zeta.
        destruct (strict_value (refs s) f) as [fn| |]; auto.
        destruct (num_args_of fn) as [na|]; auto.
        destruct (length xs <? na).
        { unfold pop_with, pop_frame. rewrite Hd. cbn. auto. }
        pose proof (run_fn_balanced _ IHc (log (PReplace (block_of fn)) s) fn xs) as Hr.
        destruct (run_fn run (call n) (log (PReplace (block_of fn)) s) fn xs) as [r s2].
        destruct r; auto; cbn [log depth] in Hr.
        * destruct (skipn na xs).
          -- unfold pop_with, pop_frame. rewrite Hr, Hd. cbn. auto.
          -- specialize (IHc s2 v (v0 :: l)).
             destruct (call n s2 v (v0 :: l)) as [[]]; cbn in *; auto;
               unfold pop_with, pop_frame; rewrite IHc, Hr, Hd; cbn; auto.
        * apply IHt. congruence.
        * unfold pop_with, pop_frame. rewrite Hr, Hd. cbn. auto.
  Qed.

  (** ** Values *)
  Lemma F2_length : forall {X Y} (P : X -> Y -> Prop) l l', Forall2 P l l' -> length l = length l'.
  Proof. induction 1; cbn; auto. Qed.

  Lemma F2_firstn : forall {X Y} (P : X -> Y -> Prop) n l l', Forall2 P l l' -> Forall2 P (firstn n l) (firstn n l').
  Proof. induction n; intros l l' H; cbn; auto. destruct H; auto. Qed.

  Lemma F2_skipn : forall {X Y} (P : X -> Y -> Prop) n l l', Forall2 P l l' -> Forall2 P (skipn n l) (skipn n l').
  Proof. induction n; intros l l' H; cbn; auto. destruct H; auto. Qed.

  Lemma F2_nth : forall {X Y} (P : X -> Y -> Prop) n l l' x, Forall2 P l l' -> nth_error l n = Some x ->
    exists y, nth_error l' n = Some y /\ P x y.
  Proof.
    induction n; intros l l' x H E; destruct H; cbn in *; try discriminate.
    - injection E as <-. eauto.
    - eauto.
  Qed.

  Lemma F2_nth_none : forall {X Y} (P : X -> Y -> Prop) n l l', Forall2 P l l' -> nth_error l n = None ->
    nth_error l' n = None.
  Proof.
    intros X Y P n l l' H E. apply nth_error_None. rewrite <- (F2_length _ _ _ H). apply nth_error_None; auto.
  Qed.

  Inductive strict_eqv : strict B -> strict B -> Prop :=
  | se_val v v' : eqv v v' -> strict_eqv (SVal v) (SVal v')
  | se_undef : strict_eqv SUndef SUndef
  | se_bad : strict_eqv SBad SBad.

  Lemma strict_sim : forall s s' f f', st_eqv s s' -> eqv f f' ->
    strict_eqv (strict_value (refs s) f) (strict_value (refs s') f').
  Proof.
    intros s s' f f' Hs. unfold strict_value. rewrite <- (F2_length _ _ _ Hs).
    generalize (length (refs s)) as k. intros k; revert f f'.
    induction k; intros f f' Hf; inversion Hf; subst; cbn; try (constructor; auto; fail);
      destruct (nth_error (refs s) l) as [o|] eqn:E.
    - destruct (F2_nth _ _ _ _ _ Hs E) as [o' [E' Ho]]. rewrite E'. inversion Ho; constructor.
    - rewrite (F2_nth_none _ _ _ _ Hs E). constructor.
    - destruct (F2_nth _ _ _ _ _ Hs E) as [o' [E' Ho]]. rewrite E'. inversion Ho; subst; try constructor. auto.
    - rewrite (F2_nth_none _ _ _ _ Hs E). constructor.
  Qed.

  Lemma num_args_eqv : forall fn fn' : val, eqv fn fn' -> num_args_of fn' = num_args_of fn.
  Proof. intros fn fn' H; inversion H; reflexivity. Qed.

  Lemma strict_cases : forall r (f : val) fn, strict_value r f = SVal fn -> f = fn \/ is_papp f = false.
  Proof.
    intros r f fn H. destruct f; auto. left. unfold strict_value in H.
    destruct (length r); cbn in H; congruence.
  Qed.

  Lemma strict_not_ref : forall r (f : val) fn, strict_value r f = SVal fn -> strict_value r fn = SVal fn.
  Proof.
    intros r f fn H. unfold strict_value in *.
    assert (forall k f, strict_fuel k r f = SVal fn -> forall k', strict_fuel k' r fn = SVal fn) as G.
    { clear. induction k; intros f H k'; destruct f; cbn in H; try (injection H as <-; destruct k'; reflexivity);
        destruct (nth_error r l) as [[]|]; try discriminate. eauto. }
    eapply G; eauto.
  Qed.

  Lemma eqv_is_papp : forall f f' : val, eqv f f' -> is_papp f' = is_papp f.
  Proof. intros f f' H; inversion H; reflexivity. Qed.

  Lemma partial_apply_eqv : forall r r' (f f' fn fn' : val) xs xs' na,
    strict_value r f = SVal fn -> strict_value r' f' = SVal fn' ->
    num_args_of fn = Some na -> length xs < na -> eqv fn fn' -> eqv f f' -> Forall2 eqv xs xs' ->
    eqv (partial_apply fn f xs) (partial_apply fn' f' xs').
  Proof.
    intros r r' f f' fn fn' xs xs' na S1 S2 Hn Hl Hfn Hf Hx.
    unfold partial_apply. rewrite (num_args_eqv _ _ Hfn), Hn, <- (F2_length _ _ _ Hx).
    destruct (is_papp f) eqn:Ep.
    - destruct (strict_cases _ _ _ S1) as [->|E]; [|congruence].
      inversion Hfn; subst; cbn in Ep; try discriminate.
      cbn in Hn. injection Hn as Hn.
      destruct (strict_cases _ _ _ S2) as [->|E]; [|inversion Hf; subst; discriminate].
      replace k with (na - length xs + length xs) in H, H0 |- * by lia.
      eapply eqv_papp.
      + eapply flat_papp, H.
      + rewrite (F2_length _ _ _ Hx) in H0 |- *. replace (na - length xs') with (na - length xs) by (rewrite (F2_length _ _ _ Hx); auto).
        rewrite (F2_length _ _ _ Hx). eapply flat_papp, H0.
      + auto.
      + apply Forall2_app; auto.
    - eapply eqv_papp; eauto; apply flat_head; auto. rewrite (eqv_is_papp _ _ Hf); auto.
  Qed.

  (** ** Calls do not depend on how arguments were grouped in the values they work on. *)
  Definition SimA (n : nat) : Prop := forall s s' f f' xs xs',
    st_eqv s s' -> eqv f f' -> Forall2 eqv xs xs' -> done (call n s f xs) ->
    exists m, res_eqv (call n s f xs) (call m s' f' xs').
  Definition SimT (n : nat) : Prop := forall s s' f f' xs xs',
    0 < depth s -> 0 < depth s' ->
    st_eqv s s' -> eqv f f' -> Forall2 eqv xs xs' -> done (tail_call n s f xs) ->
    exists m, res_eqv (tail_call n s f xs) (tail_call m s' f' xs').
  (** A call of [g] with [xs] that gives exactly the arguments its partial applications wait
      for is one of [h] with [zs]. *)
  Inductive full : val -> list val -> val -> list val -> Prop :=
  | full_head g xs : is_papp g = false -> full g xs g xs
  | full_papp k b f xs ys h zs : length ys = k -> full f (xs ++ ys) h zs -> full (VPapp k b f xs) ys h zs.

  Lemma flat_full : forall k f xs h zs, flat k f xs h zs -> forall ys, length ys = k -> full f (xs ++ ys) h (zs ++ ys).
  Proof.
    induction 1; intros ys' L; [constructor; auto|].
    apply full_papp; [rewrite app_length; lia|]. rewrite <- app_assoc. apply IHflat. rewrite app_length; lia.
  Qed.

  Definition SimB (n : nat) : Prop := forall s s' g g' xs xs' h h' zs zs',
    st_eqv s s' -> full g xs h zs -> full g' xs' h' zs' -> eqv h h' -> Forall2 eqv zs zs' ->
    done (call n s g xs) ->
    exists m, res_eqv (call n s g xs) (call m s' g' xs').

  Lemma res_done : forall r r' : res B, res_eqv r r' -> done r /\ done r'.
  Proof. intros [o s] [o' s'] [H _]. cbn in H. unfold done; cbn. inversion H; subst; split; discriminate. Qed.

  Lemma lift_call : forall r m m' s f xs, res_eqv r (call m s f xs) -> m <= m' -> res_eqv r (call m' s f xs).
  Proof.
    intros r m m' s f xs H L. destruct (res_done _ _ H) as [_ D].
    rewrite (proj1 (extends_le _ _ L) s f xs D). auto.
  Qed.
  Lemma lift_tail : forall r m m' s f xs, res_eqv r (tail_call m s f xs) -> m <= m' -> res_eqv r (tail_call m' s f xs).
  Proof.
    intros r m m' s f xs H L. destruct (res_done _ _ H) as [_ D].
    rewrite (proj2 (extends_le _ _ L) s f xs D). auto.
  Qed.
  Lemma lift_fn : forall r m m' s f xs, res_eqv r (run_fn run (call m) s f xs) -> m <= m' ->
    res_eqv r (run_fn run (call m') s f xs).
  Proof.
    intros r m m' s f xs H L. destruct (res_done _ _ H) as [_ D].
    rewrite (run_fn_extends _ _ (proj1 (extends_le _ _ L)) s f xs D). auto.
  Qed.

  Lemma run_fn_sim : forall n, SimA n -> SimB n -> forall s s' fn fn' xs xs' na,
    st_eqv s s' -> eqv fn fn' -> Forall2 eqv xs xs' -> num_args_of fn = Some na -> na <= length xs ->
    done (run_fn run (call n) s fn xs) ->
    exists m, res_eqv (run_fn run (call n) s fn xs) (run_fn run (call m) s' fn' xs').
  Proof.
    intros n HA HB s s' fn fn' xs xs' na Hs Hfn Hx Hna Hl D.
    inversion Hfn; subst; cbn in *; try discriminate; injection Hna as <-.
    - apply (run_eqv _ _ R); auto.
      + intros; apply extends_le; auto.
      + apply F2_firstn; auto.
    - apply (HB s s' f f' (xs0 ++ firstn k xs) (xs'0 ++ firstn k xs') h h' (zs ++ firstn k xs) (zs' ++ firstn k xs')); auto.
      + eapply flat_full; eauto. rewrite firstn_length. lia.
      + eapply flat_full; eauto. rewrite firstn_length, <- (F2_length _ _ _ Hx). lia.
      + apply Forall2_app; auto. apply F2_firstn; auto.
  Qed.

  Lemma pop_sim : forall o o' (s s' : st), 0 < depth s -> 0 < depth s' -> st_eqv s s' -> out_eqv o o' ->
    res_eqv (pop_with o s) (pop_with o' s').
  Proof.
    intros o o' s s' H H' Hs Ho. unfold pop_with, pop_frame.
    destruct (depth s); [lia|]. destruct (depth s'); [lia|]. split; auto.
  Qed.

  Lemma log_sim : forall e (r r' : res B), res_eqv r r' -> res_eqv (fst r, log e (snd r)) (fst r', log e (snd r')).
  Proof. intros e [o s] [o' s'] [H1 H2]. split; auto. Qed.

  Lemma st_eqv_enter : forall (s s' : st) b b', st_eqv s s' ->
    st_eqv (push_frame (log (PEnter b) s)) (push_frame (log (PEnter b') s')).
  Proof. intros s s' b b' H; exact H. Qed.

  (** What FbleCall does with the result of the function, and what TailCall does. *)
  Definition after_call (n : nat) (r : res B) (unused : list val) : res B :=
    let '(r, s2) := r in
    match r with
    | Tail g ys => tail_call n s2 g (ys ++ unused)
    | Ret v =>
      match unused with
      | [] => pop_with (Ret v) s2
      | _ :: _ =>
        match pop_frame s2 with
        | Some s2' => call n s2' v unused
        | None => (Crash, s2)
        end
      end
    | Abort => pop_with Abort s2
    | o => (o, s2)
    end.

  Definition after_tail (n : nat) (r : res B) (unused : list val) : res B :=
    let '(r, s2) := r in
    match r with
    | Tail g' ys => tail_call n s2 g' (ys ++ unused)
    | Ret v =>
      match unused with
      | [] => pop_with (Ret v) s2
      | _ :: _ =>
        let '(r', s3) := call n s2 v unused in
        match r' with
        | Ret _ | Abort => pop_with r' s3
        | o => (o, s3)
        end
      end
    | Abort => pop_with Abort s2
    | o => (o, s2)
    end.

  Definition enter (fn : val) (s : st) : st := push_frame (log (PEnter (block_of fn)) s).

  Lemma call_eq : forall n s f fn na args, strict_value (refs s) f = SVal fn -> num_args_of fn = Some na ->
    na <= length args ->
    call (S n) s f args =
      (fst (after_call n (run_fn run (call n) (enter fn s) fn args) (skipn na args)),
       log PExit (snd (after_call n (run_fn run (call n) (enter fn s) fn args) (skipn na args)))).
  Proof.
    intros n s f fn na args E1 E2 L. rewrite call_S, E1, E2. cbv zeta.
    replace (length args <? na) with false by (symmetry; apply Nat.ltb_ge; auto).
    unfold after_call, enter. destruct (run_fn run (call n) _ fn args) as [r s2].
    destruct r; try reflexivity.
    - destruct (skipn na args); try reflexivity.
      + destruct (pop_with (Ret v) s2); reflexivity.
      + destruct (pop_frame s2); try reflexivity. destruct (call n s0 v (v0 :: l)); reflexivity.
    - destruct (tail_call n s2 f0 (args0 ++ skipn na args)); reflexivity.
    - destruct (pop_with Abort s2); reflexivity.
  Qed.

  Lemma call_eq_papp : forall n s f fn na args, strict_value (refs s) f = SVal fn -> num_args_of fn = Some na ->
    length args < na -> call (S n) s f args = (Ret (partial_apply fn f args), s).
  Proof.
    intros n s f fn na args E1 E2 L. rewrite call_S, E1, E2. cbv zeta.
    replace (length args <? na) with true by (symmetry; apply Nat.ltb_lt; auto). reflexivity.
  Qed.

  Lemma tail_eq : forall n s f fn na args, strict_value (refs s) f = SVal fn -> num_args_of fn = Some na ->
    na <= length args ->
    tail_call (S n) s f args =
      after_tail n (run_fn run (call n) (log (PReplace (block_of fn)) s) fn args) (skipn na args).
  Proof.
    intros n s f fn na args E1 E2 L. rewrite tail_call_S, E1, E2. cbv zeta.
    replace (length args <? na) with false by (symmetry; apply Nat.ltb_ge; auto). reflexivity.
  Qed.

  Lemma tail_eq_papp : forall n s f fn na args, strict_value (refs s) f = SVal fn -> num_args_of fn = Some na ->
    length args < na -> tail_call (S n) s f args = pop_with (Ret (partial_apply fn f args)) s.
  Proof.
    intros n s f fn na args E1 E2 L. rewrite tail_call_S, E1, E2. cbv zeta.
    replace (length args <? na) with true by (symmetry; apply Nat.ltb_lt; auto). reflexivity.
  Qed.

  (** The depth after running a function. *)
  Definition ran (s : st) (r : res B) : Prop :=
    match r with
    | (Ret _, s') | (Abort, s') | (Tail _ _, s') => depth s' = depth s
    | _ => True
    end.

  Lemma run_fn_ran : forall n s fn xs, ran s (run_fn run (call n) s fn xs).
  Proof. intros. apply run_fn_balanced. apply call_balanced. Qed.

  Lemma after_call_sim : forall n, SimA n -> SimT n -> forall r r' us us' s0 s0',
    0 < depth s0 -> 0 < depth s0' -> ran s0 r -> ran s0' r' ->
    res_eqv r r' -> Forall2 eqv us us' -> done (after_call n r us) ->
    exists m, res_eqv (after_call n r us) (after_call m r' us').
  Proof.
    intros n HA HT [o s] [o' s'] us us' s0 s0' P P' Rn Rn' [Ho Hs] Hu D. cbn in Ho, Hs.
    inversion Ho; subst; cbn in *.
    - destruct Hu as [|u u' us us' Hu0 Hu].
      + exists 0. apply pop_sim; auto; lia.
      + unfold pop_frame in *. rewrite Rn in *. rewrite Rn' in *.
        destruct (depth s0) as [|d]; [lia|]. destruct (depth s0') as [|d']; [lia|].
        eapply HA; eauto.
    - eapply HT; eauto; try lia. apply Forall2_app; auto.
    - exists 0. apply pop_sim; auto; lia.
    - exists 0. split; auto.
  Qed.

  Lemma after_tail_sim : forall n, SimA n -> SimT n -> forall r r' us us' s0 s0',
    0 < depth s0 -> 0 < depth s0' -> ran s0 r -> ran s0' r' ->
    res_eqv r r' -> Forall2 eqv us us' -> done (after_tail n r us) ->
    exists m, res_eqv (after_tail n r us) (after_tail m r' us').
  Proof.
    intros n HA HT [o s] [o' s'] us us' s0 s0' P P' Rn Rn' [Ho Hs] Hu D. cbn in Ho, Hs.
    inversion Ho; subst; cbn in *.
    - destruct Hu as [|u u' us us' Hu0 Hu].
      + exists 0. apply pop_sim; auto; lia.
      + assert (D' : done (call n s v (u :: us))).
        { intros E. destruct (call n s v (u :: us)) as [o1 s1]. cbn in E. subst o1. apply D; reflexivity. }
        destruct (HA s s' v v' (u :: us) (u' :: us')) as [m Hm]; auto.
        exists m. pose proof (proj1 (call_balanced n) s v (u :: us)) as B1.
        pose proof (proj1 (call_balanced m) s' v' (u' :: us')) as B2.
        destruct (call n s v (u :: us)) as [o1 s1], (call m s' v' (u' :: us')) as [o2 s2].
        destruct Hm as [Ho1 Hs1]. cbn in Ho1, Hs1.
        inversion Ho1; subst; try contradiction.
        * apply pop_sim; auto; lia.
        * apply pop_sim; auto; lia.
        * split; auto.
    - eapply HT; eauto; try lia. apply Forall2_app; auto.
    - exists 0. apply pop_sim; auto; lia.
    - exists 0. split; auto.
  Qed.

  Lemma after_call_mono : forall n m r us, n <= m -> done (after_call n r us) -> after_call m r us = after_call n r us.
  Proof.
    intros n m [o s] us L D. destruct o; cbn in *; auto.
    - destruct us; auto. destruct (pop_frame s); auto. apply (proj1 (extends_le _ _ L)); auto.
    - apply (proj2 (extends_le _ _ L)); auto.
  Qed.

  Lemma after_tail_mono : forall n m r us, n <= m -> done (after_tail n r us) -> after_tail m r us = after_tail n r us.
  Proof.
    intros n m [o s] us L D. destruct o; cbn in *; auto.
    - destruct us; auto.
      rewrite (proj1 (extends_le _ _ L) s v (v0 :: us)); auto.
      intros E. destruct (call n s v (v0 :: us)) as [o1 s1]. cbn in E. subst o1. apply D; reflexivity.
    - apply (proj2 (extends_le _ _ L)); auto.
  Qed.

  Lemma done_after_call : forall n r us, done (after_call n r us) -> done r.
  Proof. intros n [o s] us D E. cbn in E. subst o. apply D. reflexivity. Qed.
  Lemma done_after_tail : forall n r us, done (after_tail n r us) -> done r.
  Proof. intros n [o s] us D E. cbn in E. subst o. apply D. reflexivity. Qed.

  Lemma papp_step : forall r m s' k b f xs ys, length ys = k ->
    res_eqv r (call m (push_frame (log (PEnter b) s')) f (xs ++ ys)) ->
    res_eqv r (call (S m) s' (VPapp k b f xs) ys).
  Proof.
    intros r m s' k b f xs ys L Hm.
    rewrite (call_eq m s' _ (VPapp k b f xs) k).
    + unfold enter. cbn [run_fn block_of].
      rewrite firstn_all2 by lia. rewrite skipn_all2 by lia.
      pose proof (proj1 (call_balanced m) (push_frame (log (PEnter b) s')) f (xs ++ ys)) as Bm.
      destruct (call m (push_frame (log (PEnter b) s')) f (xs ++ ys)) as [o1 s1].
      destruct r as [o2 s2].
      destruct Hm as [Ho Hs1]. cbn in Ho, Hs1.
      inversion Ho; subst; try contradiction; cbn in Bm |- *; unfold pop_with, pop_frame; try rewrite Bm; split; auto; cbn; auto.
    + unfold strict_value. destruct (length (refs s')) eqn:El; reflexivity.
    + reflexivity.
    + lia.
  Qed.

  Lemma sim : forall n, SimA n /\ SimT n /\ SimB n.
  Proof.
    induction n as [|n [HA [HT HB]]].
    { split; [|split]; repeat intro; exfalso; apply H2 || apply H4 || apply H6; reflexivity. }
    assert (HA' : SimA (S n)).
    { intros s s' f f' xs xs' Hs Hf Hx D.
      pose proof (strict_sim _ _ _ _ Hs Hf) as St.
      destruct (strict_value (refs s) f) as [fn| |] eqn:E1; inversion St as [? fn' Hfn E2 E3|E2 E3|E2 E3];
        subst; symmetry in E3.
      - pose proof (num_args_eqv _ _ Hfn) as Hna.
        destruct (num_args_of fn) as [na|] eqn:Ena.
        + destruct (Nat.lt_ge_cases (length xs) na) as [L|L].
          * exists 1. rewrite (call_eq_papp _ _ _ _ _ _ E1 Ena L).
            rewrite (call_eq_papp _ _ _ _ _ _ E3 Hna) by (rewrite <- (F2_length _ _ _ Hx); auto).
            split; auto. constructor. eapply partial_apply_eqv; eauto.
          * rewrite (call_eq n _ _ _ _ _ E1 Ena L) in D |- *.
            assert (D1 : done (after_call n (run_fn run (call n) (enter fn s) fn xs) (skipn na xs)))
              by exact D.
            destruct (run_fn_sim n HA HB (enter fn s) (enter fn' s') fn fn' xs xs' na) as [m1 H1]; auto.
            { eapply done_after_call; eauto. }
            destruct (after_call_sim n HA HT (run_fn run (call n) (enter fn s) fn xs) (run_fn run (call m1) (enter fn' s') fn' xs')
              (skipn na xs) (skipn na xs') (enter fn s) (enter fn' s')) as [m2 H2];
              auto; try (cbn; lia); try apply run_fn_ran; try (apply F2_skipn; auto).
            exists (S (max m1 m2)).
            rewrite (call_eq _ _ _ _ _ _ E3 Hna) by (rewrite <- (F2_length _ _ _ Hx); auto).
            assert (Eq : after_call (max m1 m2) (run_fn run (call (max m1 m2)) (enter fn' s') fn' xs') (skipn na xs')
                    = after_call m2 (run_fn run (call m1) (enter fn' s') fn' xs') (skipn na xs')).
            { rewrite (run_fn_extends _ _ (proj1 (extends_le m1 _ (Nat.le_max_l _ _)))) by (apply (res_done _ _ H1)).
              apply after_call_mono; [lia|]. apply (res_done _ _ H2). }
            rewrite Eq. apply log_sim. auto.
        + exists 1. rewrite !call_S, E1, E3, Ena, Hna. split; auto. constructor.
      - exists 1. rewrite !call_S, E1, E3. split; auto. constructor.
      - exists 1. rewrite !call_S, E1, E3. split; auto. constructor. }
    split; [auto|split].
    - intros s s' f f' xs xs' P P' Hs Hf Hx D.
      pose proof (strict_sim _ _ _ _ Hs Hf) as St.
      destruct (strict_value (refs s) f) as [fn| |] eqn:E1; inversion St as [? fn' Hfn E2 E3|E2 E3|E2 E3];
        subst; symmetry in E3.
      + pose proof (num_args_eqv _ _ Hfn) as Hna.
        destruct (num_args_of fn) as [na|] eqn:Ena.
        * destruct (Nat.lt_ge_cases (length xs) na) as [L|L].
          -- exists 1. rewrite (tail_eq_papp _ _ _ _ _ _ E1 Ena L).
             rewrite (tail_eq_papp _ _ _ _ _ _ E3 Hna) by (rewrite <- (F2_length _ _ _ Hx); auto).
             apply pop_sim; auto. constructor. eapply partial_apply_eqv; eauto.
          -- rewrite (tail_eq n _ _ _ _ _ E1 Ena L) in D |- *.
             destruct (run_fn_sim n HA HB (log (PReplace (block_of fn)) s) (log (PReplace (block_of fn')) s') fn fn' xs xs' na) as [m1 H1]; auto.
             { eapply done_after_tail; eauto. }
             destruct (after_tail_sim n HA HT (run_fn run (call n) (log (PReplace (block_of fn)) s) fn xs)
               (run_fn run (call m1) (log (PReplace (block_of fn')) s') fn' xs')
               (skipn na xs) (skipn na xs') (log (PReplace (block_of fn)) s) (log (PReplace (block_of fn')) s')) as [m2 H2];
               auto; try apply run_fn_ran; try (apply F2_skipn; auto).
             exists (S (max m1 m2)).
             rewrite (tail_eq _ _ _ _ _ _ E3 Hna) by (rewrite <- (F2_length _ _ _ Hx); auto).
             assert (Eq : after_tail (max m1 m2) (run_fn run (call (max m1 m2)) (log (PReplace (block_of fn')) s') fn' xs') (skipn na xs')
                     = after_tail m2 (run_fn run (call m1) (log (PReplace (block_of fn')) s') fn' xs') (skipn na xs')).
             { rewrite (run_fn_extends _ _ (proj1 (extends_le m1 _ (Nat.le_max_l _ _)))) by (apply (res_done _ _ H1)).
               apply after_tail_mono; [lia|]. apply (res_done _ _ H2). }
             rewrite Eq. auto.
        * exists 1. rewrite !tail_call_S, E1, E3, Ena, Hna. split; auto. constructor.
      + exists 1. rewrite !tail_call_S, E1, E3. split; auto. constructor.
      + exists 1. rewrite !tail_call_S, E1, E3. split; auto. constructor.
    - intros s s' g g' xs xs' h h' zs zs' Hs F F' Hh Hz D.
      destruct F as [g xs Hp|k b f xs0 ys0 h zs0 L F].
      + (* the left is the function itself: unroll the right *)
        assert (G : forall g' xs' h' zs', full g' xs' h' zs' -> forall s', st_eqv s s' ->
           (forall s', st_eqv s s' -> exists m, res_eqv (call (S n) s g xs) (call m s' h' zs')) ->
           exists m, res_eqv (call (S n) s g xs) (call m s' g' xs')).
        { clear - R. induction 1 as [f xs0 Hp|k b f xs0 ys0 h zs0 L F IH]; intros s' Hs H; auto.
          destruct (IH (push_frame (log (PEnter b) s'))) as [m Hm]; auto.
          exists (S m). apply papp_step; auto. }
        eapply G; eauto.
      + (* the left is a partial application *)
        assert (St : strict_value (refs s) (VPapp k b f xs0) = SVal (VPapp k b f xs0)).
        { unfold strict_value. destruct (length (refs s)); reflexivity. }
        rewrite (call_eq n s _ _ k _ St eq_refl) in D |- * by lia.
        unfold enter in *. cbn [run_fn block_of] in *.
        rewrite firstn_all2 in D |- * by lia.
        rewrite skipn_all2 in D |- * by lia.
        assert (D1 : done (call n (push_frame (log (PEnter b) s)) f (xs0 ++ ys0))).
        { intros E. apply D. destruct (call n (push_frame (log (PEnter b) s)) f (xs0 ++ ys0)) as [o1 s1]. cbn in E. subst o1. reflexivity. }
        destruct (HB (push_frame (log (PEnter b) s)) s' f g' (xs0 ++ ys0) xs' h h' zs0 zs') as [m Hm]; auto.
        exists m.
        pose proof (proj1 (call_balanced n) (push_frame (log (PEnter b) s)) f (xs0 ++ ys0)) as Bm.
        destruct (call n (push_frame (log (PEnter b) s)) f (xs0 ++ ys0)) as [o1 s1].
        destruct (call m s' g' xs') as [o2 s2].
        destruct Hm as [Ho Hs1]. cbn in Ho, Hs1.
        inversion Ho; subst; try contradiction; cbn in Bm |- *; unfold pop_with, pop_frame; try rewrite Bm; split; auto; cbn; auto.
  Qed.

  (** ** Splitting the arguments of a call (C17) *)
  Definition simA n := proj1 (sim n).
  Definition simT n := proj1 (proj2 (sim n)).
  Definition simB n := proj2 (proj2 (sim n)).

  Lemma refs_eqv : forall (s1 s2 s3 : st), st_eqv s1 s2 -> refs s3 = refs s2 -> st_eqv s1 s3.
  Proof. unfold st_eqv. intros s1 s2 s3 H ->. auto. Qed.
  Lemma refs_eqv_l : forall (s1 s2 s3 : st), st_eqv s1 s2 -> refs s3 = refs s1 -> st_eqv s3 s2.
  Proof. unfold st_eqv. intros s1 s2 s3 H ->. auto. Qed.

  Lemma run_fn_firstn : forall c s fn na xs ys, num_args_of fn = Some na -> na <= length xs ->
    run_fn run c s fn (xs ++ ys) = run_fn run c s fn xs.
  Proof.
    intros c s fn na xs ys H L. destruct fn; cbn in *; try discriminate; injection H as ->;
      rewrite firstn_app; replace (na - length xs) with 0 by lia; cbn; rewrite app_nil_r; reflexivity.
  Qed.

  Lemma skipn_app_le : forall {X} na (xs ys : list X), na <= length xs -> skipn na (xs ++ ys) = skipn na xs ++ ys.
  Proof. intros. rewrite skipn_app. replace (na - length xs) with 0 by lia. reflexivity. Qed.

  (** [left] is the result of giving [ys] to the result [r1], from any state with the same
      references; results that are not values stay. *)
  Definition SplitRes (left r1 : res B) (ys : list val) : Prop :=
    match r1 with
    | (Ret g, s1) => forall s1', refs s1' = refs s1 -> exists m, res_eqv left (call m s1' g ys)
    | _ => res_eqv left r1
    end.

  Definition SplitC (n : nat) : Prop := forall s s' f f' xs xs' ys ys',
    st_eqv s s' -> eqv f f' -> Forall2 eqv xs xs' -> Forall2 eqv ys ys' -> ys <> [] ->
    done (call n s f (xs ++ ys)) ->
    exists m, done (call m s' f' xs') /\ SplitRes (call n s f (xs ++ ys)) (call m s' f' xs') ys'.
  Definition SplitT (n : nat) : Prop := forall s s' f f' xs xs' ys ys',
    0 < depth s -> 0 < depth s' ->
    st_eqv s s' -> eqv f f' -> Forall2 eqv xs xs' -> Forall2 eqv ys ys' -> ys <> [] ->
    done (tail_call n s f (xs ++ ys)) ->
    exists m, done (tail_call m s' f' xs') /\ SplitRes (tail_call n s f (xs ++ ys)) (tail_call m s' f' xs') ys'.

  Definition same_res (r r' : res B) : Prop := fst r = fst r' /\ refs (snd r) = refs (snd r').

  Lemma SplitRes_same : forall l l' r r' ys, same_res l l' -> same_res r r' -> SplitRes l r ys -> SplitRes l' r' ys.
  Proof.
    intros [lo ls] [lo' ls'] [ro rs] [ro' rs'] ys [E1 E2] [E3 E4] H. cbn in *. subst lo' ro'.
    destruct ro.
    2-5: destruct H as [H1 H2]; split; cbn in *; unfold st_eqv in *; congruence.
    intros s1 Es. destruct (H s1) as [m [H1 H2]]; [congruence|]. exists m.
    split; cbn in *; auto. unfold st_eqv in *. congruence.
  Qed.

  Lemma same_refl : forall r, same_res r r.
  Proof. split; auto. Qed.
  Lemma same_log : forall r e, same_res r (fst r, log e (snd r)).
  Proof. split; auto. Qed.
  Lemma same_sym : forall r r', same_res r r' -> same_res r' r.
  Proof. intros r r' [H1 H2]. split; auto. Qed.

  Definition popped (r : res B) : res B :=
    match r with (Ret v, s) => pop_with (Ret v) s | (Abort, s) => pop_with Abort s | _ => r end.

  Lemma same_popped : forall n s f xs, 0 < depth s -> same_res (call n s f xs) (popped (call n s f xs)).
  Proof.
    intros n s f xs P. pose proof (proj1 (call_balanced n) s f xs) as Bn.
    destruct (call n s f xs) as [o s1]. destruct o; try contradiction; cbn; try (split; auto; fail);
      unfold pop_with, pop_frame; rewrite Bn; destruct (depth s); try lia; split; auto.
  Qed.

  Lemma done_same : forall r r', same_res r r' -> done r -> done r'.
  Proof. intros r r' [E _]. unfold done. congruence. Qed.

  Lemma res_eqv_same : forall l l' r r', same_res l l' -> same_res r r' -> res_eqv l r -> res_eqv l' r'.
  Proof.
    intros l l' r r' [E1 E2] [E3 E4] [H1 H2]. split; [congruence|]. unfold st_eqv in *. congruence.
  Qed.

  Lemma after_tail_ret : forall n s v u us, after_tail n (Ret v, s) (u :: us) = popped (call n s v (u :: us)).
  Proof. intros. cbn. destruct (call n s v (u :: us)) as [o s1]. destruct o; reflexivity. Qed.

  Lemma SplitRes_log : forall left r ys e e', SplitRes left r ys ->
    SplitRes (fst left, log e (snd left)) (fst r, log e' (snd r)) ys.
  Proof. intros. eapply SplitRes_same; eauto; apply same_log. Qed.

  Lemma pos : forall s : st, 0 < depth s -> exists d, depth s = S d.
  Proof. intros s H. destruct (depth s) as [|d]; [lia|eauto]. Qed.

  Lemma same_pop : forall o (s : st), 0 < depth s -> same_res (o, s) (pop_with o s).
  Proof. intros o s H. unfold pop_with, pop_frame. destruct (depth s); [lia|]. split; auto. Qed.

  (** [l] and [r] stand for what FbleCall or TailCall do with a result. *)
  Definition after (tail : bool) := if tail then after_tail else after_call.

  Lemma after_same : forall tl n s v u us, 0 < depth s ->
    exists s', refs s' = refs s /\ same_res (call n s' v (u :: us)) (after tl n (Ret v, s) (u :: us)).
  Proof.
    intros tl n s v u us P. destruct tl; cbn [after].
    - exists s. split; auto. rewrite after_tail_ret. apply same_popped; auto.
    - cbn. unfold pop_frame. destruct (pos s P) as [d E]. rewrite E.
      exists (mk_st (refs s) d (prof s)). split; auto. apply same_refl.
  Qed.

  Lemma after_split : forall tl tr n, SplitC n -> SplitT n -> forall r r' us us' ys ys' s0 s0',
    0 < depth s0 -> 0 < depth s0' -> ran s0 r -> ran s0' r' -> ys <> [] ->
    res_eqv r r' -> Forall2 eqv us us' -> Forall2 eqv ys ys' -> done (after tl n r (us ++ ys)) ->
    exists m, done (after tr m r' us') /\ SplitRes (after tl n r (us ++ ys)) (after tr m r' us') ys'.
  Proof.
    intros tl tr n HC HT [o s] [o' s'] us us' ys ys' s0 s0' P P' Rn Rn' Ny [Ho Hs] Hu Hy D. cbn in Ho, Hs.
    inversion Ho; subst; cbn in Rn, Rn'; rewrite <- ?Rn in P; rewrite <- ?Rn' in P'.
    - destruct Hu as [|u u' us us' Hu0 Hu].
      + exists 0. assert (Ea : after tr 0 (Ret v', s') [] = pop_with (Ret v') s') by (destruct tr; reflexivity).
        rewrite Ea. split.
        { eapply done_same; [apply same_pop; auto|discriminate]. }
        eapply SplitRes_same; [apply same_refl|apply same_pop; auto|].
        cbn [SplitRes]. intros s1 Es. destruct ys as [|y ys]; [congruence|]. cbn [app] in *.
        destruct (after_same tl n s v y ys P) as [s2 [Es2 Sm]].
        destruct (simA n s2 s1 v v' (y :: ys) ys') as [m Hm]; auto.
        { unfold st_eqv in *. congruence. }
        { eapply done_same; [apply same_sym|]; eauto. }
        exists m. eapply res_eqv_same; eauto. apply same_refl.
      + cbn [app] in *.
        destruct (after_same tl n s v u (us ++ ys) P) as [s2 [Es2 Sm]].
        destruct (HC s2 (if tr then s' else mk_st (refs s') (pred (depth s')) (prof s')) v v' (u :: us) (u' :: us') ys ys') as [m [Dm Hm]]; auto.
        { unfold st_eqv in *. destruct tr; cbn; congruence. }
        { eapply done_same; [apply same_sym|]; eauto. }
        exists m.
        assert (Sr : same_res (call m (if tr then s' else mk_st (refs s') (pred (depth s')) (prof s')) v' (u' :: us')) (after tr m (Ret v', s') (u' :: us'))).
        { destruct tr; cbn [after].
          - rewrite after_tail_ret. apply same_popped; auto.
          - cbn. unfold pop_frame. destruct (pos s' P') as [d E]. rewrite E. apply same_refl. }
        split; [eapply done_same; eauto|]. eapply SplitRes_same; eauto.
    - assert (Et : forall b n s (f : val) xs us, after b n (Tail f xs, s) us = tail_call n s f (xs ++ us)) by (destruct b; reflexivity).
      rewrite Et in D |- *. rewrite app_assoc in *.
      destruct (HT s s' f f' (xs ++ us) (xs' ++ us') ys ys') as [m Hm]; auto; [apply Forall2_app; auto|].
      exists m. rewrite Et. auto.
    - assert (Et : forall b n s us, after b n (Abort, s) us = pop_with Abort s) by (destruct b; reflexivity).
      exists 0. rewrite !Et. split.
      { eapply done_same; [apply same_pop; auto|discriminate]. }
      eapply SplitRes_same; [apply same_pop; auto|apply same_pop; auto|]. split; auto. 
    - assert (Et : forall b n s us, after b n (Crash, s) us = (Crash, s)) by (destruct b; reflexivity).
      exists 0. rewrite !Et. split; [discriminate|]. split; auto.
  Qed.

  Lemma after_tail_call_sim : forall n r r' us us' s0 s0',
    0 < depth s0 -> 0 < depth s0' -> ran s0 r -> ran s0' r' ->
    res_eqv r r' -> Forall2 eqv us us' -> done (after_tail n r us) ->
    exists m, res_eqv (after_tail n r us) (after_call m r' us').
  Proof.
    intros n [o s] [o' s'] us us' s0 s0' P P' Rn Rn' [Ho Hs] Hu D. cbn in Ho, Hs.
    inversion Ho; subst; cbn in Rn, Rn'; rewrite <- ?Rn in P; rewrite <- ?Rn' in P'.
    - destruct Hu as [|u u' us us' Hu0 Hu].
      + exists 0. apply pop_sim; auto.
      + rewrite after_tail_ret in D |- *. pose proof (same_popped n s v (u :: us) P) as Sm.
        cbn. unfold pop_frame. destruct (pos s' P') as [d E]. rewrite E.
        destruct (simA n s (mk_st (refs s') d (prof s')) v v' (u :: us) (u' :: us')) as [m Hm]; auto.
        { eapply done_same; [apply same_sym|]; eauto. }
        exists m. eapply res_eqv_same; eauto. apply same_refl.
    - cbn in D |- *. eapply simT; eauto. apply Forall2_app; auto.
    - exists 0. apply pop_sim; auto.
    - exists 0. split; auto.
  Qed.

  Lemma papp_strict : forall r k b (f : val) xs, strict_value r (VPapp k b f xs) = SVal (VPapp k b f xs).
  Proof. intros. unfold strict_value. destruct (length r); reflexivity. Qed.

  (** Calling a partial application from what calling its function with exactly the missing
      arguments does. *)
  Lemma papp_split : forall left m s k b f xs ys us, length ys = k ->
    done (call m (push_frame (log (PEnter b) s)) f (xs ++ ys)) ->
    us <> [] ->
    SplitRes left (call m (push_frame (log (PEnter b) s)) f (xs ++ ys)) us ->
    exists m', res_eqv left (call m' s (VPapp k b f xs) (ys ++ us)).
  Proof.
    intros left m s k b f xs ys us L D Nu H.
    pose proof (proj1 (call_balanced m) (push_frame (log (PEnter b) s)) f (xs ++ ys)) as Bm.
    assert (G : forall M, m <= M -> call (S M) s (VPapp k b f xs) (ys ++ us) =
       (fst (after_call M (call m (push_frame (log (PEnter b) s)) f (xs ++ ys)) us),
        log PExit (snd (after_call M (call m (push_frame (log (PEnter b) s)) f (xs ++ ys)) us)))).
    { intros M LM. rewrite (call_eq M s _ (VPapp k b f xs) k) by (try apply papp_strict; try reflexivity; rewrite app_length; lia).
      unfold enter. cbn [run_fn block_of]. rewrite <- L.
      rewrite firstn_app, firstn_all, Nat.sub_diag, skipn_app, skipn_all, Nat.sub_diag. cbn [firstn skipn app].
      rewrite app_nil_r. rewrite (proj1 (extends_le m M LM)) by auto. reflexivity. }
    destruct (call m (push_frame (log (PEnter b) s)) f (xs ++ ys)) as [o s1].
    destruct o; cbn [SplitRes] in H; try contradiction.
    - destruct (H (mk_st (refs s1) (depth s) (prof s1)) eq_refl) as [m2 H2].
      exists (S (max m m2)). rewrite G by lia. cbn in Bm |- *. destruct us as [|u us]; [congruence|].
      unfold pop_frame. rewrite Bm.
      apply (lift_call _ _ (max m m2)) in H2; [|lia].
      destruct (call (max m m2) _ v (u :: us)). exact H2.
    - exists (S m). rewrite G by lia. cbn in Bm |- *. unfold pop_with, pop_frame. rewrite Bm. exact H.
    - exists (S m). rewrite G by lia. exact H.
  Qed.

  Lemma papp_applies : forall (fn : val) na f xs, num_args_of fn = Some na ->
    partial_apply fn f xs = VPapp (na - length xs) (block_of fn) f xs.
  Proof. intros fn na f xs H. unfold partial_apply. rewrite H. reflexivity. Qed.

  Lemma flat_of : forall r r' (f f' fn fn' : val) na,
    strict_value r f = SVal fn -> strict_value r' f' = SVal fn' -> num_args_of fn = Some na ->
    eqv fn fn' -> eqv f f' ->
    exists h h' zs zs', eqv h h' /\ Forall2 eqv zs zs' /\
      forall k xs, k + length xs = na -> flat k f xs h (zs ++ xs) /\ flat k f' xs h' (zs' ++ xs).
  Proof.
    intros r r' f f' fn fn' na E1 E2 Ena Hfn Hf.
    destruct (is_papp f) eqn:Ep.
    - destruct (strict_cases _ _ _ E1) as [->|E]; [|congruence].
      inversion Hfn; subst; cbn in Ep; try discriminate.
      cbn in Ena. injection Ena as ->.
      destruct (strict_cases _ _ _ E2) as [->|E]; [|inversion Hf; subst; discriminate].
      exists h, h', zs, zs'. split; auto. split; auto. intros k ys <-. split; apply flat_papp; auto.
    - exists f, f', [], []. split; auto. split; auto. intros k ys _. split; apply flat_head; auto.
      rewrite (eqv_is_papp _ _ Hf); auto.
  Qed.

  Lemma regroup : forall r r' (f f' fn fn' : val) na xs xs' ys ys',
    strict_value r f = SVal fn -> strict_value r' f' = SVal fn' -> num_args_of fn = Some na ->
    eqv fn fn' -> eqv f f' -> Forall2 eqv xs xs' -> Forall2 eqv ys ys' -> length xs + length ys < na ->
    eqv (partial_apply fn f (xs ++ ys)) (partial_apply (partial_apply fn' f' xs') (partial_apply fn' f' xs') ys').
  Proof.
    intros r r' f f' fn fn' na xs xs' ys ys' E1 E2 Ena Hfn Hf Hx Hy L.
    destruct (flat_of _ _ _ _ _ _ _ E1 E2 Ena Hfn Hf) as [h [h' [zs [zs' [Hh [Hz Fl]]]]]].
    pose proof (num_args_eqv _ _ Hfn) as Hna. rewrite Ena in Hna.
    pose proof (F2_length _ _ _ Hx) as Lx. pose proof (F2_length _ _ _ Hy) as Ly.
    rewrite (papp_applies _ _ _ _ Ena), (papp_applies _ _ _ _ Hna).
    rewrite (papp_applies _ (na - length xs') (VPapp _ _ _ _)) by reflexivity.
    rewrite app_length.
    replace (na - length xs' - length ys') with (na - (length xs + length ys)) by lia.
    eapply eqv_papp with (h := h) (h' := h') (zs := zs ++ xs ++ ys) (zs' := (zs' ++ xs') ++ ys'); auto.
    - apply Fl. rewrite app_length. lia.
    - replace (na - length xs') with (na - (length xs + length ys) + length ys') by lia.
      apply flat_papp. apply Fl. lia.
    - rewrite <- app_assoc. repeat apply Forall2_app; auto.
  Qed.

  Lemma split : forall n, SplitC n /\ SplitT n.
  Proof.
    induction n as [|n [HC HT]].
    { split; repeat intro; exfalso; apply H4 || apply H6; reflexivity. }
    assert (Sat : forall s s' f f' xs xs' ys ys' fn na,
      st_eqv s s' -> eqv f f' -> Forall2 eqv xs xs' -> Forall2 eqv ys ys' -> ys <> [] ->
      strict_value (refs s) f = SVal fn -> num_args_of fn = Some na -> na <= length xs ->
      done (call (S n) s f (xs ++ ys)) ->
      exists m, done (call m s' f' xs') /\ SplitRes (call (S n) s f (xs ++ ys)) (call m s' f' xs') ys').
    { intros s s' f f' xs xs' ys ys' fn na Hs Hf Hx Hy Ny E1 Ena L D.
      pose proof (strict_sim _ _ _ _ Hs Hf) as St. rewrite E1 in St. inversion St as [? fn' Hfn E2 E3| |].
      subst. symmetry in E3. pose proof (num_args_eqv _ _ Hfn) as Hna. rewrite Ena in Hna.
      rewrite (call_eq n _ _ _ _ _ E1 Ena) in D |- * by (rewrite app_length; lia).
      rewrite (run_fn_firstn _ _ _ _ _ _ Ena L), (skipn_app_le _ _ _ L) in D |- *.
      assert (D1 : done (after_call n (run_fn run (call n) (enter fn s) fn xs) (skipn na xs ++ ys))) by exact D.
      destruct (run_fn_sim n (simA n) (simB n) (enter fn s) (enter fn' s') fn fn' xs xs' na) as [m1 H1]; auto.
      { eapply done_after_call; eauto. }
      destruct (after_split false false n HC HT (run_fn run (call n) (enter fn s) fn xs)
         (run_fn run (call m1) (enter fn' s') fn' xs') (skipn na xs) (skipn na xs') ys ys' (enter fn s) (enter fn' s'))
         as [m2 [D2 H2]];
         auto; try (cbn; lia); try apply run_fn_ran; try (apply F2_skipn; auto).
      exists (S (max m1 m2)).
      rewrite (call_eq _ _ _ _ _ _ E3 Hna) by (rewrite <- (F2_length _ _ _ Hx); auto).
      assert (Eq : after_call (max m1 m2) (run_fn run (call (max m1 m2)) (enter fn' s') fn' xs') (skipn na xs')
              = after_call m2 (run_fn run (call m1) (enter fn' s') fn' xs') (skipn na xs')).
      { rewrite (run_fn_extends _ _ (proj1 (extends_le m1 _ (Nat.le_max_l _ _)))) by (apply (res_done _ _ H1)).
        apply after_call_mono; [lia|auto]. }
      rewrite Eq. split; [exact D2|]. apply SplitRes_log. auto. }
    assert (Papp : forall (left : res B) s f xs ys na fn,
       strict_value (refs s) f = SVal fn -> num_args_of fn = Some na -> length xs < na -> na <= length xs + length ys ->
       (forall s', refs s' = refs s -> exists m, res_eqv left (call m s' f (xs ++ ys))) ->
       (forall s' us, refs s' = refs s -> us = skipn (na - length xs) ys -> us <> [] ->
          exists m, done (call m s' f (xs ++ firstn (na - length xs) ys)) /\
            SplitRes left (call m s' f (xs ++ firstn (na - length xs) ys)) us) ->
       forall s1, refs s1 = refs s -> exists m, res_eqv left (call m s1 (partial_apply fn f xs) ys)).
    { clear - R. intros left s f xs ys na fn E1 Ena L L2 H1 H2 s1 Es.
      rewrite (papp_applies _ _ _ _ Ena).
      destruct (skipn (na - length xs) ys) as [|u us] eqn:Eu.
      - assert (Ly : length ys = na - length xs).
        { pose proof (skipn_length (na - length xs) ys) as Hl. rewrite Eu in Hl. cbn in Hl. lia. }
        destruct (H1 (push_frame (log (PEnter (block_of fn)) s1)) Es) as [m Hm].
        exists (S m). apply papp_step; auto.
      - destruct (H2 (push_frame (log (PEnter (block_of fn)) s1)) (u :: us) Es eq_refl) as [m [Dm Hm]]; [discriminate|].
        assert (Ey : firstn (na - length xs) ys ++ u :: us = ys) by (rewrite <- Eu; apply firstn_skipn).
        destruct (papp_split left m s1 (na - length xs) (block_of fn) f xs (firstn (na - length xs) ys) (u :: us)) as [m' H'];
          auto; [rewrite firstn_length; lia|discriminate|].
        rewrite Ey in H'. eauto. }
    split.
    - intros s s' f f' xs xs' ys ys' Hs Hf Hx Hy Ny D.
      pose proof (strict_sim _ _ _ _ Hs Hf) as St.
      destruct (strict_value (refs s) f) as [fn| |] eqn:E1; inversion St as [? fn' Hfn E2 E3|E2 E3|E2 E3];
        subst; symmetry in E3.
      2: { exists 1. rewrite !call_S, E1, E3. split; [discriminate|]. split; auto. constructor. }
      2: { exists 1. rewrite !call_S, E1, E3. split; [discriminate|]. split; auto. constructor. }
      pose proof (num_args_eqv _ _ Hfn) as Hna.
      destruct (num_args_of fn) as [na|] eqn:Ena.
      2: { exists 1. rewrite !call_S, E1, E3, Ena, Hna. split; [discriminate|]. split; auto. constructor. }
      destruct (Nat.lt_ge_cases (length xs) na) as [L|L]; [|eapply Sat; eauto].
      exists 1. rewrite (call_eq_papp 0 _ _ _ _ _ E3 Hna) by (rewrite <- (F2_length _ _ _ Hx); auto).
      split; [discriminate|]. cbn [SplitRes].
      pose proof (F2_length _ _ _ Hx) as Lx. pose proof (F2_length _ _ _ Hy) as Ly.
      destruct (Nat.lt_ge_cases (length (xs ++ ys)) na) as [L2|L2].
      + intros s1 Es. exists 1. rewrite (call_eq_papp n _ _ _ _ _ E1 Ena L2).
        rewrite app_length in L2.
        rewrite (call_eq_papp 0 s1 _ (partial_apply fn' f' xs') (na - length xs') ys')
          by (rewrite ?(papp_applies _ _ _ _ Hna); try apply papp_strict; try reflexivity; lia).
        split; [|eapply refs_eqv; eauto]. constructor.
        eapply regroup; eauto.
      + rewrite app_length in L2.
        apply (Papp (call (S n) s f (xs ++ ys)) s' f' xs' ys' na fn' E3 Hna); try lia.
        * intros s1 Es. apply simA; auto; [eapply refs_eqv; eauto|apply Forall2_app; auto].
        * intros s1 us Es -> Nu. rewrite <- Lx in Nu |- *.
          rewrite <- (firstn_skipn (na - length xs) ys), app_assoc in D |- *.
          eapply Sat; eauto.
          -- eapply refs_eqv; eauto.
          -- apply Forall2_app; auto. apply F2_firstn; auto.
          -- apply F2_skipn; auto.
          -- intros F. apply Nu. apply length_zero_iff_nil. rewrite skipn_length, <- Ly, <- skipn_length, F. reflexivity.
          -- rewrite app_length, firstn_length. lia.
    - intros s s' f f' xs xs' ys ys' P P' Hs Hf Hx Hy Ny D.
      assert (X : forall s : st, 0 < depth s -> exists d, depth s = S d) by (intros s1 H0; destruct (depth s1) as [|d]; [lia|eauto]).
      destruct (X s P) as [d Ed], (X s' P') as [d' Ed'].
      pose proof (strict_sim _ _ _ _ Hs Hf) as St.
      destruct (strict_value (refs s) f) as [fn| |] eqn:E1; inversion St as [? fn' Hfn E2 E3|E2 E3|E2 E3];
        subst; symmetry in E3.
      2: { exists 1. rewrite !tail_call_S, E1, E3. split; [discriminate|]. split; auto. constructor. }
      2: { exists 1. rewrite !tail_call_S, E1, E3. split; [discriminate|]. split; auto. constructor. }
      pose proof (num_args_eqv _ _ Hfn) as Hna.
      destruct (num_args_of fn) as [na|] eqn:Ena.
      2: { exists 1. rewrite !tail_call_S, E1, E3, Ena, Hna. split; [discriminate|]. split; auto. constructor. }
      pose proof (F2_length _ _ _ Hx) as Lx. pose proof (F2_length _ _ _ Hy) as Ly.
      destruct (Nat.lt_ge_cases (length xs) na) as [L|L].
      + exists 1. rewrite (tail_eq_papp 0 _ _ _ _ _ E3 Hna) by (rewrite <- (F2_length _ _ _ Hx); auto).
        assert (Ep : forall o, pop_with o s' = (o, mk_st (refs s') d' (prof s'))) by (intros; unfold pop_with, pop_frame; rewrite Ed'; reflexivity).
        rewrite Ep.
        split; [discriminate|]. cbn [SplitRes].
        destruct (Nat.lt_ge_cases (length (xs ++ ys)) na) as [L2|L2].
        * intros s1 Es. exists 1. rewrite (tail_eq_papp n _ _ _ _ _ E1 Ena L2).
          unfold pop_with, pop_frame. rewrite Ed.
          rewrite app_length in L2.
          rewrite (call_eq_papp 0 s1 _ (partial_apply fn' f' xs') (na - length xs') ys')
            by (rewrite ?(papp_applies _ _ _ _ Hna); try apply papp_strict; try reflexivity; lia).
          split; [|eapply refs_eqv; [|exact Es]; exact Hs]. constructor.
          eapply regroup; eauto.
        * rewrite app_length in L2. intros s1 Es. cbn in Es.
          apply (Papp (tail_call (S n) s f (xs ++ ys)) s' f' xs' ys' na fn' E3 Hna); auto; try lia.
          -- intros s2 Es2.
             rewrite (tail_eq n _ _ _ _ _ E1 Ena) in D |- * by (rewrite app_length; lia).
             destruct (run_fn_sim n (simA n) (simB n) (log (PReplace (block_of fn)) s) (enter fn' s2) fn fn' (xs ++ ys) (xs' ++ ys') na) as [m1 H1]; auto.
             { unfold enter. eapply refs_eqv; [|exact Es2]. exact Hs. }
             { apply Forall2_app; auto. }
             { rewrite app_length; lia. }
             { eapply done_after_tail; eauto. }
             destruct (after_tail_call_sim n (run_fn run (call n) (log (PReplace (block_of fn)) s) fn (xs ++ ys))
                (run_fn run (call m1) (enter fn' s2) fn' (xs' ++ ys')) (skipn na (xs ++ ys)) (skipn na (xs' ++ ys'))
                (log (PReplace (block_of fn)) s) (enter fn' s2)) as [m2 H2];
               auto; try (cbn; lia); try apply run_fn_ran; try (apply F2_skipn, Forall2_app; auto).
             exists (S (max m1 m2)).
             rewrite (call_eq _ s2 f' fn' na) by (try rewrite app_length; try rewrite Es2; auto; lia).
             assert (Eq : after_call (max m1 m2) (run_fn run (call (max m1 m2)) (enter fn' s2) fn' (xs' ++ ys')) (skipn na (xs' ++ ys'))
                     = after_call m2 (run_fn run (call m1) (enter fn' s2) fn' (xs' ++ ys')) (skipn na (xs' ++ ys'))).
             { rewrite (run_fn_extends _ _ (proj1 (extends_le m1 _ (Nat.le_max_l _ _)))) by (apply (res_done _ _ H1)).
               apply after_call_mono; [lia|]. apply (res_done _ _ H2). }
             rewrite Eq. eapply res_eqv_same; [apply same_refl|apply same_log|]. auto.
          -- intros s2 us Es2 -> Nu. rewrite <- Lx in Nu |- *.
             rewrite <- (firstn_skipn (na - length xs) ys), app_assoc in D |- *.
             set (xs1 := xs ++ firstn (na - length xs) ys) in *.
             set (us := skipn (na - length xs) ys) in *.
             assert (Hx1 : Forall2 eqv xs1 (xs' ++ firstn (na - length xs) ys')) by (apply Forall2_app; auto; apply F2_firstn; auto).
             set (xs1' := xs' ++ firstn (na - length xs) ys') in *.
             assert (L1 : na <= length xs1) by (unfold xs1; rewrite app_length, firstn_length; lia).
             rewrite (tail_eq n _ _ _ _ _ E1 Ena) in D |- * by (rewrite app_length; lia).
             rewrite (run_fn_firstn _ _ _ _ _ _ Ena L1), (skipn_app_le _ _ _ L1) in D |- *.
             destruct (run_fn_sim n (simA n) (simB n) (log (PReplace (block_of fn)) s) (enter fn' s2) fn fn' xs1 xs1' na) as [m1 H1]; auto.
             { unfold enter. eapply refs_eqv; [|exact Es2]. exact Hs. }
             { eapply done_after_tail; eauto. }
             destruct (after_split true false n HC HT (run_fn run (call n) (log (PReplace (block_of fn)) s) fn xs1)
                (run_fn run (call m1) (enter fn' s2) fn' xs1') (skipn na xs1) (skipn na xs1') us (skipn (na - length xs) ys')
                (log (PReplace (block_of fn)) s) (enter fn' s2)) as [m2 [D2 H2]];
               auto; try (cbn; lia); try apply run_fn_ran; try (apply F2_skipn; auto).
             { intros F. apply Nu. apply length_zero_iff_nil. unfold us in F. rewrite skipn_length, <- Ly, <- skipn_length, F. reflexivity. }
             exists (S (max m1 m2)).
             rewrite (call_eq _ s2 f' fn' na) by (try rewrite <- (F2_length _ _ _ Hx1); try rewrite Es2; auto).
             assert (Eq : after_call (max m1 m2) (run_fn run (call (max m1 m2)) (enter fn' s2) fn' xs1') (skipn na xs1')
                     = after_call m2 (run_fn run (call m1) (enter fn' s2) fn' xs1') (skipn na xs1')).
             { rewrite (run_fn_extends _ _ (proj1 (extends_le m1 _ (Nat.le_max_l _ _)))) by (apply (res_done _ _ H1)).
               apply after_call_mono; [lia|auto]. }
             rewrite Eq. split; [exact D2|]. eapply SplitRes_same; [apply same_refl|apply same_log|]. auto.
      + rewrite (tail_eq n _ _ _ _ _ E1 Ena) in D |- * by (rewrite app_length; lia).
        rewrite (run_fn_firstn _ _ _ _ _ _ Ena L), (skipn_app_le _ _ _ L) in D |- *.
        destruct (run_fn_sim n (simA n) (simB n) (log (PReplace (block_of fn)) s) (log (PReplace (block_of fn')) s') fn fn' xs xs' na) as [m1 H1]; auto.
        { eapply done_after_tail; eauto. }
        destruct (after_split true true n HC HT (run_fn run (call n) (log (PReplace (block_of fn)) s) fn xs)
           (run_fn run (call m1) (log (PReplace (block_of fn')) s') fn' xs') (skipn na xs) (skipn na xs') ys ys'
           (log (PReplace (block_of fn)) s) (log (PReplace (block_of fn')) s')) as [m2 [D2 H2]];
          auto; try (cbn; lia); try apply run_fn_ran; try (apply F2_skipn; auto).
        exists (S (max m1 m2)).
        rewrite (tail_eq _ _ _ _ _ _ E3 Hna) by (rewrite <- (F2_length _ _ _ Hx); auto).
        assert (Eq : after_tail (max m1 m2) (run_fn run (call (max m1 m2)) (log (PReplace (block_of fn')) s') fn' xs') (skipn na xs')
                = after_tail m2 (run_fn run (call m1) (log (PReplace (block_of fn')) s') fn' xs') (skipn na xs')).
        { rewrite (run_fn_extends _ _ (proj1 (extends_le m1 _ (Nat.le_max_l _ _)))) by (apply (res_done _ _ H1)).
          apply after_tail_mono; [lia|auto]. }
        rewrite Eq. split; [exact D2|]. auto.
  Qed.

  (** ** Joining the arguments of two calls *)
  Definition SeqL (n2 : nat) (r1 : res B) (ys : list val) (L : res B) : Prop :=
    match r1 with
    | (Ret g, s1) => exists s1', refs s1' = refs s1 /\ L = call n2 s1' g ys
    | _ => same_res L r1
    end.

  Definition pick (tr : bool) := if tr then tail_call else call.
  Definition pick_ok (tr : bool) (s : st) (f : val) : Prop :=
    if tr then 0 < depth s /\ exists fn, strict_value (refs s) f = SVal fn else True.

  Definition JoinC (n2 n : nat) : Prop := forall s s' f f' xs xs' ys ys' L tr,
    st_eqv s s' -> eqv f f' -> Forall2 eqv xs xs' -> Forall2 eqv ys ys' -> ys <> [] ->
    SeqL n2 (call n s f xs) ys L -> done L -> pick_ok tr s' f' ->
    exists m, res_eqv L (pick tr m s' f' (xs' ++ ys')).
  Definition JoinT (n2 n : nat) : Prop := forall s s' f f' xs xs' ys ys' L,
    0 < depth s -> 0 < depth s' ->
    st_eqv s s' -> eqv f f' -> Forall2 eqv xs xs' -> Forall2 eqv ys ys' -> ys <> [] ->
    SeqL n2 (tail_call n s f xs) ys L -> done L ->
    exists m, res_eqv L (tail_call m s' f' (xs' ++ ys')).

  Lemma SeqL_same : forall n2 r r' ys L, same_res r r' -> SeqL n2 r ys L -> SeqL n2 r' ys L.
  Proof.
    intros n2 [o s] [o' s'] ys L [E1 E2] H. cbn in E1, E2. subst o'. destruct o; cbn in *.
    2-5: unfold same_res in *; cbn in *; split; destruct H; congruence.
    destruct H as [s1 [E L1]]. exists s1. split; congruence.
  Qed.

  Lemma after_sim : forall tl tr n r r' us us' s0 s0',
    0 < depth s0 -> 0 < depth s0' -> ran s0 r -> ran s0' r' ->
    res_eqv r r' -> Forall2 eqv us us' -> done (after tl n r us) ->
    exists m, res_eqv (after tl n r us) (after tr m r' us').
  Proof.
    intros tl tr n [o s] [o' s'] us us' s0 s0' P P' Rn Rn' [Ho Hs] Hu D. cbn in Ho, Hs.
    inversion Ho; subst; cbn in Rn, Rn'; rewrite <- ?Rn in P; rewrite <- ?Rn' in P'.
    - destruct Hu as [|u u' us us' Hu0 Hu].
      + exists 0. assert (Et : forall b n s (v : val), after b n (Ret v, s) [] = pop_with (Ret v) s) by (destruct b; reflexivity).
        rewrite !Et. apply pop_sim; auto.
      + destruct (after_same tl n s v u us P) as [s2 [Es Sm]].
        set (s2' := if tr then s' else mk_st (refs s') (pred (depth s')) (prof s')).
        destruct (simA n s2 s2' v v' (u :: us) (u' :: us')) as [m Hm]; auto.
        { unfold st_eqv, s2' in *. destruct tr; cbn; congruence. }
        { eapply done_same; [apply same_sym|]; eauto. }
        exists m. eapply res_eqv_same; eauto. unfold s2'. destruct tr; cbn [after].
        * rewrite after_tail_ret. apply same_popped; auto.
        * cbn. unfold pop_frame. destruct (pos s' P') as [d E]. rewrite E. apply same_refl.
    - assert (Et : forall b n s (f : val) xs us, after b n (Tail f xs, s) us = tail_call n s f (xs ++ us)) by (destruct b; reflexivity).
      rewrite Et in D |- *.
      destruct (simT n s s' f f' (xs ++ us) (xs' ++ us')) as [m Hm]; auto; [apply Forall2_app; auto|].
      exists m. rewrite Et. auto.
    - assert (Et : forall b n s us, after b n (Abort, s) us = pop_with Abort s) by (destruct b; reflexivity).
      exists 0. rewrite !Et. apply pop_sim; auto.
    - assert (Et : forall b n s us, after b n (Crash, s) us = (Crash, s)) by (destruct b; reflexivity).
      exists 0. rewrite !Et. split; auto.
  Qed.

  Definition enter_as (tr : bool) (fn : val) (s : st) : st :=
    if tr then log (PReplace (block_of fn)) s else enter fn s.

  Lemma pick_eq : forall tr n s f fn na args, strict_value (refs s) f = SVal fn -> num_args_of fn = Some na ->
    na <= length args ->
    same_res (after tr n (run_fn run (call n) (enter_as tr fn s) fn args) (skipn na args)) (pick tr (S n) s f args).
  Proof.
    intros tr n s f fn na args E1 Ena L. destruct tr; cbn [pick after enter_as].
    - rewrite (tail_eq n _ _ _ _ _ E1 Ena L). apply same_refl.
    - rewrite (call_eq n _ _ _ _ _ E1 Ena L). apply same_log.
  Qed.

  Lemma enter_as_depth : forall tr fn s, (tr = true -> 0 < depth s) -> 0 < depth (enter_as tr fn s).
  Proof. intros [] fn s H; cbn; auto. lia. Qed.

  Lemma after_mono : forall tr n m r us, n <= m -> done (after tr n r us) -> after tr m r us = after tr n r us.
  Proof. intros []; [apply after_tail_mono|apply after_call_mono]. Qed.
  Lemma done_after : forall tr n r us, done (after tr n r us) -> done r.
  Proof. intros []; [apply done_after_tail|apply done_after_call]. Qed.

  (** The right side of a simulation. *)
  Lemma pick_intro : forall left tr m1 m2 s f fn na args, strict_value (refs s) f = SVal fn -> num_args_of fn = Some na ->
    na <= length args -> done (run_fn run (call m1) (enter_as tr fn s) fn args) ->
    res_eqv left (after tr m2 (run_fn run (call m1) (enter_as tr fn s) fn args) (skipn na args)) ->
    exists m, res_eqv left (pick tr m s f args).
  Proof.
    intros left tr m1 m2 s f fn na args E1 Ena L D H.
    exists (S (max m1 m2)). eapply res_eqv_same; [apply same_refl|apply pick_eq; eauto|].
    rewrite (run_fn_extends _ _ (proj1 (extends_le m1 _ (Nat.le_max_l _ _)))) by auto.
    rewrite (after_mono tr m2) by (try lia; apply (res_done _ _ H)). auto.
  Qed.

  Lemma simAT : forall n tr s s' f f' fn na xs xs', st_eqv s s' -> eqv f f' -> Forall2 eqv xs xs' ->
    strict_value (refs s) f = SVal fn -> num_args_of fn = Some na -> na <= length xs ->
    done (call n s f xs) -> pick_ok tr s' f' -> exists m, res_eqv (call n s f xs) (pick tr m s' f' xs').
  Proof.
    intros [|n] tr s s' f f' fn na xs xs' Hs Hf Hx E1 Ena L D Ok; [exfalso; apply D; reflexivity|].
    pose proof (strict_sim _ _ _ _ Hs Hf) as St. rewrite E1 in St. inversion St as [? fn' Hfn E2 E3| |].
    subst. symmetry in E3. pose proof (num_args_eqv _ _ Hfn) as Hna. rewrite Ena in Hna.
    assert (Dp : 0 < depth (enter_as tr fn' s')) by (apply enter_as_depth; intros ->; apply Ok).
    rewrite (call_eq n _ _ _ _ _ E1 Ena L) in D |- *.
    destruct (run_fn_sim n (simA n) (simB n) (enter fn s) (enter_as tr fn' s') fn fn' xs xs' na) as [m1 H1]; auto.
    { destruct tr; exact Hs. }
    { apply (done_after false n _ (skipn na xs)). exact D. }
    destruct (after_sim false tr n (run_fn run (call n) (enter fn s) fn xs)
       (run_fn run (call m1) (enter_as tr fn' s') fn' xs') (skipn na xs) (skipn na xs') (enter fn s) (enter_as tr fn' s')) as [m2 H2];
      auto; try (cbn; lia); try apply run_fn_ran; try (apply F2_skipn; auto).
    assert (Lx : na <= length xs') by (rewrite <- (F2_length _ _ _ Hx); auto).
    apply (pick_intro _ tr m1 m2 s' f' fn' na xs' E3 Hna Lx (proj2 (res_done _ _ H1))).
    eapply res_eqv_same; [apply same_log|apply same_refl|]. exact H2.
  Qed.

  Lemma after_join : forall tl tr n2 n, JoinC n2 n -> JoinT n2 n -> forall r r' us us' ys ys' s0 s0' L,
    0 < depth s0 -> 0 < depth s0' -> ran s0 r -> ran s0' r' -> ys <> [] ->
    res_eqv r r' -> Forall2 eqv us us' -> Forall2 eqv ys ys' ->
    SeqL n2 (after tl n r us) ys L -> done L ->
    exists m, res_eqv L (after tr m r' (us' ++ ys')).
  Proof.
    intros tl tr n2 n HC HT [o s] [o' s'] us us' ys ys' s0 s0' L P P' Rn Rn' Ny [Ho Hs] Hu Hy HL D. cbn in Ho, Hs.
    inversion Ho; subst; cbn in Rn, Rn'; rewrite <- ?Rn in P; rewrite <- ?Rn' in P'.
    - set (s2' := if tr then s' else mk_st (refs s') (pred (depth s')) (prof s')).
      assert (Sr : forall m u us, same_res (call m s2' v' (u :: us)) (after tr m (Ret v', s') (u :: us))).
      { intros m u us0. unfold s2'. destruct tr; cbn [after].
        * rewrite after_tail_ret. apply same_popped; auto.
        * cbn. unfold pop_frame. destruct (pos s' P') as [d E]. rewrite E. apply same_refl. }
      assert (Rs : refs s2' = refs s') by (unfold s2'; destruct tr; reflexivity).
      destruct Hu as [|u u' us us' Hu0 Hu].
      + assert (Et : forall b n s (v : val), after b n (Ret v, s) [] = pop_with (Ret v) s) by (destruct b; reflexivity).
        rewrite Et in HL. apply (SeqL_same _ _ _ _ _ (same_sym _ _ (same_pop (Ret v) s P))) in HL.
        destruct HL as [s1 [Es ->]]. cbn [app].
        destruct (simA n2 s1 s2' v v' ys ys') as [m Hm]; auto.
        { unfold st_eqv in *. congruence. }
        exists m. destruct Hy as [|y y' ys ys' Hy0 Hy]; [congruence|].
        eapply res_eqv_same; [apply same_refl|apply Sr|]. auto.
      + destruct (after_same tl n s v u us P) as [s2 [Es Sm]].
        apply (SeqL_same _ _ _ _ _ (same_sym _ _ Sm)) in HL.
        destruct (HC s2 s2' v v' (u :: us) (u' :: us') ys ys' L false) as [m Hm]; auto.
        { unfold st_eqv in *. congruence. }
        { cbn; auto. }
        exists m. cbn [app pick] in *. eapply res_eqv_same; [apply same_refl|apply Sr|]. auto.
    - assert (Et : forall b n s (f : val) xs us, after b n (Tail f xs, s) us = tail_call n s f (xs ++ us)) by (destruct b; reflexivity).
      rewrite Et in HL.
      destruct (HT s s' f f' (xs ++ us) (xs' ++ us') ys ys' L) as [m Hm]; auto; [apply Forall2_app; auto|].
      exists m. rewrite Et, app_assoc. auto.
    - assert (Et : forall b n s us, after b n (Abort, s) us = pop_with Abort s) by (destruct b; reflexivity).
      exists 0. rewrite Et in HL |- *.
      apply (SeqL_same _ _ _ _ _ (same_sym _ _ (same_pop Abort s P))) in HL.
      eapply res_eqv_same; [apply same_sym; exact HL|apply same_pop; auto|]. split; auto.
    - assert (Et : forall b n s us, after b n (Crash, s) us = (Crash, s)) by (destruct b; reflexivity).
      exists 0. rewrite Et in HL |- *.
      eapply res_eqv_same; [apply same_sym; exact HL|apply same_refl|]. split; auto.
  Qed.

  Lemma regroup2 : forall r r' (f f' fn fn' : val) na xs xs' ys ys',
    strict_value r f = SVal fn -> strict_value r' f' = SVal fn' -> num_args_of fn = Some na ->
    eqv fn fn' -> eqv f f' -> Forall2 eqv xs xs' -> Forall2 eqv ys ys' -> length xs + length ys < na ->
    eqv (partial_apply (partial_apply fn f xs) (partial_apply fn f xs) ys) (partial_apply fn' f' (xs' ++ ys')).
  Proof.
    intros r r' f f' fn fn' na xs xs' ys ys' E1 E2 Ena Hfn Hf Hx Hy L.
    destruct (flat_of _ _ _ _ _ _ _ E1 E2 Ena Hfn Hf) as [h [h' [zs [zs' [Hh [Hz Fl]]]]]].
    pose proof (num_args_eqv _ _ Hfn) as Hna. rewrite Ena in Hna.
    pose proof (F2_length _ _ _ Hx) as Lx. pose proof (F2_length _ _ _ Hy) as Ly.
    rewrite (papp_applies _ _ _ _ Hna), (papp_applies _ _ _ _ Ena).
    rewrite (papp_applies _ (na - length xs) (VPapp _ _ _ _)) by reflexivity.
    rewrite app_length.
    replace (na - length xs - length ys) with (na - (length xs' + length ys')) by lia.
    eapply eqv_papp with (h := h) (h' := h') (zs := (zs ++ xs) ++ ys) (zs' := zs' ++ xs' ++ ys'); auto.
    - replace (na - length xs) with (na - (length xs' + length ys') + length ys) by lia.
      apply flat_papp. apply Fl. lia.
    - apply Fl. rewrite app_length. lia.
    - rewrite <- app_assoc. repeat apply Forall2_app; auto.
  Qed.

  (** Giving a partial application the rest of its arguments. *)
  Lemma papp_join : forall n2, (forall k, k < n2 -> JoinC k k) ->
    forall s s' f f' fn na xs xs' ys ys' tr s1,
    st_eqv s s' -> eqv f f' -> Forall2 eqv xs xs' -> Forall2 eqv ys ys' -> ys <> [] ->
    strict_value (refs s) f = SVal fn -> num_args_of fn = Some na -> length xs < na ->
    refs s1 = refs s -> done (call n2 s1 (partial_apply fn f xs) ys) -> pick_ok tr s' f' ->
    exists m, res_eqv (call n2 s1 (partial_apply fn f xs) ys) (pick tr m s' f' (xs' ++ ys')).
  Proof.
    intros n2 IH s s' f f' fn na xs xs' ys ys' tr s1 Hs Hf Hx Hy Ny E1 Ena L Es D Ok.
    pose proof (strict_sim _ _ _ _ Hs Hf) as St. rewrite E1 in St. inversion St as [? fn' Hfn E2 E3| |].
    subst. symmetry in E3. pose proof (num_args_eqv _ _ Hfn) as Hna. rewrite Ena in Hna.
    pose proof (F2_length _ _ _ Hx) as Lx. pose proof (F2_length _ _ _ Hy) as Ly.
    destruct n2 as [|n2]; [exfalso; apply D; reflexivity|].
    destruct (Nat.lt_ge_cases (length xs + length ys) na) as [L2|L2].
    - rewrite (call_eq_papp n2 s1 _ (partial_apply fn f xs) (na - length xs) ys)
        by (rewrite ?(papp_applies _ _ _ _ Ena); try apply papp_strict; try reflexivity; lia).
      exists 1. destruct tr; cbn [pick].
      + rewrite (tail_eq_papp 0 _ _ _ _ _ E3 Hna) by (rewrite app_length; lia).
        eapply res_eqv_same; [apply same_refl|apply same_pop; apply Ok|].
        split; [|unfold st_eqv in *; cbn; congruence]. constructor. eapply regroup2; eauto.
      + rewrite (call_eq_papp 0 _ _ _ _ _ E3 Hna) by (rewrite app_length; lia).
        split; [|unfold st_eqv in *; cbn; congruence]. constructor. eapply regroup2; eauto.
    - rewrite (papp_applies _ _ _ _ Ena) in D |- *.
      rewrite (call_eq n2 s1 _ _ _ _ (papp_strict _ _ _ _ _) eq_refl) in D |- * by lia.
      unfold enter in *. cbn [run_fn block_of] in *.
      set (k := na - length xs) in *. set (s2 := push_frame (log (PEnter (block_of fn)) s1)) in *.
      assert (E1' : strict_value (refs s2) f = SVal fn) by (cbn; rewrite Es; auto).
      assert (P2 : 0 < depth s2) by (cbn; lia).
      assert (Hs2 : st_eqv s2 s') by (unfold st_eqv in *; cbn; congruence).
      destruct (skipn k ys) as [|u us] eqn:Eu.
      + assert (Lk : length ys = k).
        { pose proof (skipn_length k ys) as Hl. rewrite Eu in Hl. cbn in Hl. lia. }
        rewrite firstn_all2 in D |- * by lia.
        assert (Sm : same_res (call n2 s2 f (xs ++ ys)) (after_call n2 (call n2 s2 f (xs ++ ys)) [])).
        { pose proof (same_popped n2 s2 f (xs ++ ys) P2) as Sp.
          pose proof (proj1 (call_balanced n2) s2 f (xs ++ ys)) as Bn.
          destruct (call n2 s2 f (xs ++ ys)) as [o s3]. destruct o; try contradiction; exact Sp. }
        destruct (simAT n2 tr s2 s' f f' fn na (xs ++ ys) (xs' ++ ys')) as [m Hm]; auto.
        { apply Forall2_app; auto. }
        { rewrite app_length; lia. }
        { eapply done_same; [apply same_sym, Sm|]. exact D. }
        exists m. eapply res_eqv_same; [|apply same_refl|exact Hm].
        destruct Sm as [M1 M2]. split; [exact M1|exact M2].
      + pose proof (firstn_skipn k ys) as Ey. pose proof (firstn_skipn k ys') as Ey'.
        rewrite Eu in Ey.
        set (L0 := after_call n2 (call n2 s2 f (xs ++ firstn k ys)) (u :: us)) in *.
        assert (HL : SeqL n2 (call n2 s2 f (xs ++ firstn k ys)) (u :: us) L0).
        { unfold L0. pose proof (proj1 (call_balanced n2) s2 f (xs ++ firstn k ys)) as Bn.
          destruct (call n2 s2 f (xs ++ firstn k ys)) as [o s3]. cbn in Bn.
          destruct o; try contradiction; cbn [SeqL after_call].
          1: { unfold pop_frame. rewrite Bn. eexists. split; [|reflexivity]. reflexivity. }
          1: { apply same_sym. apply same_pop. lia. }
          all: apply same_refl. }
        destruct (IH n2 (Nat.lt_succ_diag_r _) s2 s' f f' (xs ++ firstn k ys) (xs' ++ firstn k ys') (u :: us) (skipn k ys') L0 tr) as [m Hm]; auto.
        { apply Forall2_app; auto. apply F2_firstn; auto. }
        { rewrite <- Eu. apply F2_skipn; auto. }
        { discriminate. }
        exists m. rewrite <- app_assoc, Ey' in Hm. eapply res_eqv_same; [apply same_log|apply same_refl|]. exact Hm.
  Qed.

  Lemma join : forall n2 n, JoinC n2 n /\ JoinT n2 n.
  Proof.
    intros n2. induction n2 as [n2 IH2] using lt_wf_ind.
    assert (IHC : forall k, k < n2 -> JoinC k k) by (intros k Lk; apply (IH2 k Lk k)).
    clear IH2. induction n as [|n [HC HT]].
    { assert (Z : forall s L ys, SeqL n2 (Timeout, s) ys L -> done L -> False).
      { intros s L ys [E _] D. apply D, E. }
      split; repeat intro; exfalso; eapply Z; eauto. }
    split.
    - intros s s' f f' xs xs' ys ys' L tr Hs Hf Hx Hy Ny HL D Ok.
      pose proof (strict_sim _ _ _ _ Hs Hf) as St.
      destruct (strict_value (refs s) f) as [fn| |] eqn:E1; inversion St as [? fn' Hfn E2 E3|E2 E3|E2 E3];
        subst; symmetry in E3.
      2: { destruct tr; [destruct Ok as [_ [fn E]]; congruence|].
           exists 1. cbn [pick]. rewrite call_S, E1 in HL. rewrite call_S, E3. cbn in HL.
           eapply res_eqv_same; [apply same_sym, HL|apply same_refl|]. split; auto. constructor. }
      2: { destruct tr; [destruct Ok as [_ [fn E]]; congruence|].
           exists 1. cbn [pick]. rewrite call_S, E1 in HL. rewrite call_S, E3. cbn in HL.
           eapply res_eqv_same; [apply same_sym, HL|apply same_refl|]. split; auto. constructor. }
      pose proof (num_args_eqv _ _ Hfn) as Hna.
      destruct (num_args_of fn) as [na|] eqn:Ena.
      2: { exists 1. rewrite call_S, E1, Ena in HL.
           eapply res_eqv_same; [apply same_sym, HL|apply same_refl|].
           destruct tr; cbn [pick]; [rewrite tail_call_S|rewrite call_S]; rewrite E3, Hna; split; auto; constructor. }
      pose proof (F2_length _ _ _ Hx) as Lx. pose proof (F2_length _ _ _ Hy) as Ly.
      destruct (Nat.lt_ge_cases (length xs) na) as [Lt|Lt].
      + rewrite (call_eq_papp n _ _ _ _ _ E1 Ena Lt) in HL. destruct HL as [s1 [Es ->]].
        eapply papp_join; eauto.
      + rewrite (call_eq n _ _ _ _ _ E1 Ena Lt) in HL.
        apply (SeqL_same _ _ _ _ _ (same_sym _ _ (same_log _ PExit))) in HL.
        assert (Dp : 0 < depth (enter_as tr fn' s')) by (apply enter_as_depth; intros ->; apply Ok).
        assert (D1 : done (run_fn run (call n) (enter fn s) fn xs)).
        { intros E. destruct (run_fn run (call n) (enter fn s) fn xs) as [o s2]. cbn in E. subst o. cbn in HL.
          destruct HL as [E _]. apply D, E. }
        destruct (run_fn_sim n (simA n) (simB n) (enter fn s) (enter_as tr fn' s') fn fn' xs xs' na) as [m1 H1]; auto.
        { destruct tr; exact Hs. }
        destruct (after_join false tr n2 n HC HT (run_fn run (call n) (enter fn s) fn xs)
           (run_fn run (call m1) (enter_as tr fn' s') fn' xs') (skipn na xs) (skipn na xs') ys ys'
           (enter fn s) (enter_as tr fn' s') L) as [m2 H2];
          auto; try (cbn; lia); try apply run_fn_ran; try (apply F2_skipn; auto).
        eapply pick_intro with (m1 := m1); eauto.
        * rewrite app_length. lia.
        * rewrite (run_fn_firstn _ _ _ _ _ _ Hna) by lia. apply (res_done _ _ H1).
        * rewrite (run_fn_firstn _ _ _ _ _ _ Hna) by lia. rewrite skipn_app_le by lia. exact H2.
    - intros s s' f f' xs xs' ys ys' L P P' Hs Hf Hx Hy Ny HL D.
      pose proof (strict_sim _ _ _ _ Hs Hf) as St.
      destruct (strict_value (refs s) f) as [fn| |] eqn:E1; inversion St as [? fn' Hfn E2 E3|E2 E3|E2 E3];
        subst; symmetry in E3.
      2-3: exists 1; rewrite tail_call_S, E1 in HL; rewrite tail_call_S, E3; cbn in HL;
           eapply res_eqv_same; [apply same_sym, HL|apply same_refl|]; split; auto; constructor.
      pose proof (num_args_eqv _ _ Hfn) as Hna.
      destruct (num_args_of fn) as [na|] eqn:Ena.
      2: { exists 1. rewrite tail_call_S, E1, Ena in HL.
           eapply res_eqv_same; [apply same_sym, HL|apply same_refl|].
           rewrite tail_call_S, E3, Hna; split; auto; constructor. }
      pose proof (F2_length _ _ _ Hx) as Lx. pose proof (F2_length _ _ _ Hy) as Ly.
      assert (Ok : pick_ok true s' f') by (split; eauto).
      destruct (Nat.lt_ge_cases (length xs) na) as [Lt|Lt].
      + rewrite (tail_eq_papp n _ _ _ _ _ E1 Ena Lt) in HL.
        apply (SeqL_same _ _ _ _ _ (same_sym _ _ (same_pop _ _ P))) in HL. destruct HL as [s1 [Es ->]].
        apply (papp_join n2 IHC s s' f f' fn na xs xs' ys ys' true s1); auto.
      + rewrite (tail_eq n _ _ _ _ _ E1 Ena Lt) in HL.
        assert (D1 : done (run_fn run (call n) (log (PReplace (block_of fn)) s) fn xs)).
        { intros E. destruct (run_fn run (call n) (log (PReplace (block_of fn)) s) fn xs) as [o s2]. cbn in E. subst o. cbn in HL.
          destruct HL as [E _]. apply D, E. }
        destruct (run_fn_sim n (simA n) (simB n) (log (PReplace (block_of fn)) s) (enter_as true fn' s') fn fn' xs xs' na) as [m1 H1]; auto.
        destruct (after_join true true n2 n HC HT (run_fn run (call n) (log (PReplace (block_of fn)) s) fn xs)
           (run_fn run (call m1) (enter_as true fn' s') fn' xs') (skipn na xs) (skipn na xs') ys ys'
           (log (PReplace (block_of fn)) s) (enter_as true fn' s') L) as [m2 H2];
          auto; try (cbn; lia); try apply run_fn_ran; try (apply F2_skipn; auto).
        apply (pick_intro L true m1 m2 s' f' fn' na); auto.
        * rewrite app_length. lia.
        * rewrite (run_fn_firstn _ _ _ _ _ _ Hna) by lia. apply (res_done _ _ H1).
        * rewrite (run_fn_firstn _ _ _ _ _ _ Hna) by lia. rewrite skipn_app_le by lia. exact H2.
  Qed.
End protocol.

(** ** C17 and C18 for the protocol *)
(** FbleCall of [f] with arguments [xs] from state [s] finishes with result [r]. *)
Definition returns {B} (run : runf B) (s : st B) (f : val B) (xs : list (val B)) (r : res B) : Prop :=
  exists n, call run n s f xs = r /\ done r.

(** FbleCall of [f] with [xs], then of the result with [ys] if there is one. *)
Definition in_two_steps {B} (run : runf B) (s : st B) (f : val B) (xs ys : list (val B)) (r : res B) : Prop :=
  (exists g s1, returns run s f xs (Ret g, s1) /\ returns run s1 g ys r) \/
  (returns run s f xs r /\ forall v, fst r <> Ret v).

(** Well formed values: those that are the same as themselves, which fails only for partial
    applications that wait for a number of arguments their function does not take. *)
Definition wfv {B} (v : val B) : Prop := eqv v v.
Definition wfs {B} (s : st B) : Prop := st_eqv s s.

(** C17: giving [xs ++ ys] at once, or [xs] and then [ys], is the same. *)
Theorem call_split : forall B (run : runf B), good_run run -> forall s f xs ys,
  wfs s -> wfv f -> Forall wfv xs -> Forall wfv ys -> ys <> [] ->
  (forall r, returns run s f (xs ++ ys) r -> exists r', in_two_steps run s f xs ys r' /\ res_eqv r r') /\
  (forall r, in_two_steps run s f xs ys r -> exists r', returns run s f (xs ++ ys) r' /\ res_eqv r r').
Proof.
  intros B run R s f xs ys Hs Hf Hx Hy Ny.
  assert (F2 : forall l : list (val B), Forall wfv l -> Forall2 eqv l l) by (induction 1; auto).
  split.
  - intros r [n [<- D]].
    destruct (proj1 (split _ run R n) s s f f xs xs ys ys) as [m [Dm Hm]]; auto.
    destruct (call run m s f xs) as [o s1] eqn:E.
    assert (NT : forall g zs, o <> Tail g zs).
    { intros g zs ->. pose proof (proj1 (call_balanced _ run R m) s f xs) as Bm. rewrite E in Bm. auto. }
    destruct o; try (exfalso; eapply NT; reflexivity).
    + destruct (Hm s1 eq_refl) as [m2 H2]. exists (call run m2 s1 v ys).
      split; [|auto]. left. exists v, s1. split.
      * exists m. split; auto. 
      * exists m2. split; auto. apply (res_done _ _ _ H2).
    + exists (Abort, s1). split; auto. right. split; [exists m; split; auto|]. discriminate.
    + exists (Crash, s1). split; auto. right. split; [exists m; split; auto|]. discriminate.
    + exfalso; apply Dm; reflexivity.
  - intros r [[g [s1 [[n [E D]] [n2 [E2 D2]]]]]|[[n [E D]] Nv]].
    + destruct (proj1 (join _ run R n2 n) s s f f xs xs ys ys r false) as [m Hm]; auto; try exact I.
      { rewrite E. exists s1. split; auto. }
      exists (call run m s f (xs ++ ys)). split; auto. exists m. split; auto. apply (res_done _ _ _ Hm).
    + destruct (proj1 (join _ run R 0 n) s s f f xs xs ys ys r false) as [m Hm]; auto; try exact I.
      { rewrite E. destruct r as [o s1]. destruct o; try (split; reflexivity). exfalso; eapply Nv; reflexivity. }
      exists (call run m s f (xs ++ ys)). split; auto. exists m. split; auto. apply (res_done _ _ _ Hm).
Qed.

(** C17: no call tells apart values that differ in the grouping of arguments. *)
Theorem call_eqv : forall B (run : runf B), good_run run -> forall s s' f f' xs xs' r,
  st_eqv s s' -> eqv f f' -> Forall2 eqv xs xs' ->
  returns run s f xs r -> exists r', returns run s' f' xs' r' /\ res_eqv r r'.
Proof.
  intros B run R s s' f f' xs xs' r Hs Hf Hx [n [<- D]].
  destruct (proj1 (sim _ run R n) s s' f f' xs xs' Hs Hf Hx D) as [m Hm].
  eexists. split; [exists m; split; [reflexivity|apply (res_done _ _ _ Hm)]|auto].
Qed.

(** The result of a call does not depend on the fuel of the model. *)
Theorem returns_functional : forall B (run : runf B), good_run run -> forall s f xs r r',
  returns run s f xs r -> returns run s f xs r' -> r = r'.
Proof.
  intros B run R s f xs r r' [n [<- D]] [m [<- D']].
  destruct (Nat.le_ge_cases n m) as [L|L].
  - symmetry. apply (proj1 (extends_le _ run R n m L)); auto.
  - apply (proj1 (extends_le _ run R m n L)); auto.
Qed.

(** Values stay well formed. *)
Theorem returns_wf : forall B (run : runf B), good_run run -> forall s f xs v s',
  wfs s -> wfv f -> Forall wfv xs -> returns run s f xs (Ret v, s') -> wfv v /\ wfs s'.
Proof.
  intros B run R s f xs v s' Hs Hf Hx H.
  assert (Hx' : Forall2 eqv xs xs) by (clear H; induction Hx; auto).
  destruct (call_eqv B run R s s f f xs xs _ Hs Hf Hx' H) as [r' [H' [Ho Hs']]].
  rewrite <- (returns_functional _ _ R _ _ _ _ _ H H') in Ho, Hs'. cbn in *. inversion Ho; subst. split; auto.
Qed.

(** C18: a call leaves the frame stack as deep as it found it when it returns or aborts, and
    never hands out the tail call sentinel. *)
Theorem call_frames : forall B (run : runf B), good_run run -> forall s f xs o s',
  returns run s f xs (o, s') -> match o with Ret _ | Abort => depth s' = depth s | Tail _ _ => False | _ => True end.
Proof.
  intros B run R s f xs o s' [n [E D]].
  pose proof (proj1 (call_balanced _ run R n) s f xs) as Bn. rewrite E in Bn. destruct o; auto.
Qed.

(** C18: aborts propagate.  [poison c] never returns from a call that aborts. *)
Definition poison {B} (c : callf B) : callf B := fun s f xs =>
  match c s f xs with (Abort, s') => (Timeout, s') | r => r end.

(** A function that returns has not been given NULL by any function it called. *)
Definition abort_strict {B} (run : runf B) : Prop := forall c b blk ss xs s,
  done (run c b blk ss xs s) -> fst (run c b blk ss xs s) <> Abort ->
  run (poison c) b blk ss xs s = run c b blk ss xs s.

Section abort.
  Variable B : Type.
  Variable run : runf B.
  Hypothesis R : good_run run.
  Hypothesis A : abort_strict run.
  Notation run' := (fun c => run (poison c)).

  Lemma run_fn_poison : forall (c c' : callf B),
    (forall s f xs, done (c s f xs) -> fst (c s f xs) <> Abort -> c' s f xs = c s f xs) ->
    forall s fn xs, done (run_fn run c s fn xs) -> fst (run_fn run c s fn xs) <> Abort ->
    run_fn run' c' s fn xs = run_fn run c s fn xs.
  Proof.
    intros c c' H s fn xs D N. destruct fn; cbn in *; auto.
    rewrite <- (A c) by auto.
    apply (run_extends _ _ R); [|rewrite (A c); auto].
    intros s1 f1 xs1 D1. unfold poison in *. specialize (H s1 f1 xs1).
    destruct (c s1 f1 xs1) as [o s2]. destruct o; try (rewrite H by (auto || discriminate); reflexivity).
  Qed.

  Lemma poison_both : forall n,
    (forall s f xs, done (call run n s f xs) -> fst (call run n s f xs) <> Abort ->
       call run' n s f xs = call run n s f xs) /\
    (forall s f xs, 0 < depth s -> done (tail_call run n s f xs) -> fst (tail_call run n s f xs) <> Abort ->
       tail_call run' n s f xs = tail_call run n s f xs).
  Proof.
    induction n as [|n [IHc IHt]].
    { split; [intros s f xs D|intros s f xs _ D]; exfalso; apply D; reflexivity. }
    split; [intros s f xs D N|intros s f xs P D N].
    - rewrite call_S in D, N |- *. rewrite call_S. cbv zeta in D, N |- *.
      destruct (strict_value (refs s) f) as [fn| |]; auto.
      destruct (num_args_of fn) as [na|]; auto.
      destruct (length xs <? na); auto.
      pose proof (run_fn_ran _ run R n (push_frame (log (PEnter (block_of fn)) s)) fn xs) as Rn.
      destruct (run_fn run (call run n) (push_frame (log (PEnter (block_of fn)) s)) fn xs) as [r s2] eqn:E.
      assert (E1 : r <> Abort -> r <> Timeout -> run_fn run' (call run' n) (push_frame (log (PEnter (block_of fn)) s)) fn xs = (r, s2)).
      { intros Na Nt. rewrite <- E. apply run_fn_poison; auto; rewrite E; auto. }
      destruct r; try (rewrite E1 by discriminate; clear E1); auto.
      + destruct (skipn na xs); auto. destruct (pop_frame s2); auto.
        rewrite IHc; auto.
        * intros F. apply D. destruct (call run n s0 v (v0 :: l)). exact F.
        * intros F. apply N. destruct (call run n s0 v (v0 :: l)). exact F.
      + cbn in Rn. rewrite IHt; auto; try lia.
        * intros F. apply D. destruct (tail_call run n s2 f0 (args ++ skipn na xs)). exact F.
        * intros F. apply N. destruct (tail_call run n s2 f0 (args ++ skipn na xs)). exact F.
      + exfalso. cbn in Rn. apply N. unfold pop_with, pop_frame. rewrite Rn. reflexivity.
      + exfalso. apply D; reflexivity.
    - rewrite tail_call_S in D, N |- *. rewrite tail_call_S. cbv zeta in D, N |- *.
      destruct (strict_value (refs s) f) as [fn| |]; auto.
      destruct (num_args_of fn) as [na|]; auto.
      destruct (length xs <? na); auto.
      pose proof (run_fn_ran _ run R n (log (PReplace (block_of fn)) s) fn xs) as Rn.
      destruct (run_fn run (call run n) (log (PReplace (block_of fn)) s) fn xs) as [r s2] eqn:E.
      assert (E1 : r <> Abort -> r <> Timeout -> run_fn run' (call run' n) (log (PReplace (block_of fn)) s) fn xs = (r, s2)).
      { intros Na Nt. rewrite <- E. apply run_fn_poison; auto; rewrite E; auto. }
      destruct r; try (rewrite E1 by discriminate; clear E1); auto.
      + destruct (skipn na xs); auto.
        assert (Dc : done (call run n s2 v (v0 :: l))).
        { intros F. apply D. destruct (call run n s2 v (v0 :: l)) as [o s3]. cbn in F. subst o. reflexivity. }
        pose proof (proj1 (call_balanced _ run R n) s2 v (v0 :: l)) as Bn. cbn in Rn.
        destruct (call run n s2 v (v0 :: l)) as [o s3] eqn:Ec.
        rewrite IHc; rewrite Ec; auto.
        intros F. cbn in F. subst o. apply N. unfold pop_with, pop_frame. rewrite Bn, Rn. destruct (depth s); [lia|reflexivity].
      + cbn in Rn. apply IHt; auto. lia.
      + exfalso. cbn in Rn. apply N. unfold pop_with, pop_frame. rewrite Rn. destruct (depth s); [lia|reflexivity].
      + exfalso. apply D; reflexivity.
  Qed.

  (** A call that finishes without NULL gives the same result if every aborted call in it
      were to run forever: there was none. *)
  Theorem call_abort_strict : forall s f xs o s', o <> Abort ->
    returns run s f xs (o, s') -> returns run' s f xs (o, s').
  Proof.
    intros s f xs o s' N [n [E D]]. exists n. split; auto. rewrite <- E.
    apply (proj1 (poison_both n)); rewrite E; auto.
  Qed.
End abort.
