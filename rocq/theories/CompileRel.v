(** * Compiled code against the reference evaluator: the relations. *)
From Coq Require Import List Arith Lia Bool.
From Verif Require Import FuncModel CodeModel CompileModel CompileEval CompileStatic.
Import ListNotations.

(** [c] is the code the compiler makes of the function body [b]. *)
Definition compiled (c : code) (b : tc) : Prop :=
  exists k blk bst bn r fs,
    compile k true b (init_scope (code_num_args c) (code_num_statics c) blk (blk :: bst) bn) = Some (r, fs) /\
    size b <= k /\ wf (code_num_statics c) (code_num_args c) [] b = true /\
    code_instrs c = instrs fs /\ code_num_locals c = length (slots fs).

(** The same value: functions hold the code compiled from the body. *)
Inductive vrel : val code -> val tc -> Prop :=
| RStruct xs ys : Forall2 vrel xs ys -> vrel (VStruct xs) (VStruct ys)
| RUnion t x y : vrel x y -> vrel (VUnion t x) (VUnion t y)
| RFunc n c b k k' xs ys : compiled c b -> n = code_num_args c -> length xs = code_num_statics c ->
    Forall2 vrel xs ys -> vrel (VFunc n c k xs) (VFunc n b k' ys)
| RPapp n k k' f g xs ys : vrel f g -> Forall2 vrel xs ys -> vrel (VPapp n k f xs) (VPapp n k' g ys)
| RRef l : vrel (VRef l) (VRef l)
| RType : vrel VType VType.

Definition orel (o : option (val code)) (p : option (val tc)) : Prop :=
  match o, p with Some x, Some y => vrel x y | None, None => True | _, _ => False end.

Definition srel (s : st code) (t : st tc) : Prop :=
  Forall2 orel (refs s) (refs t) /\ depth s = depth t.

Inductive outrel : out code -> out tc -> Prop :=
| ORet x y : vrel x y -> outrel (Ret x) (Ret y)
| OTail f g xs ys : vrel f g -> Forall2 vrel xs ys -> outrel (Tail f xs) (Tail g ys)
| OAbort : outrel Abort Abort
| OCrash : outrel Crash Crash
| OTimeout : outrel Timeout Timeout.

Definition rrel (r : res code) (q : res tc) : Prop := outrel (fst r) (fst q) /\ srel (snd r) (snd q).

Inductive strictrel : strict code -> strict tc -> Prop :=
| SRVal x y : vrel x y -> (forall l, x <> VRef l) -> strictrel (SVal x) (SVal y)
| SRUndef : strictrel SUndef SUndef
| SRBad : strictrel SBad SBad.

Lemma F2_nth_error : forall {A B} (R : A -> B -> Prop) l l', Forall2 R l l' -> forall i,
  match nth_error l i, nth_error l' i with
  | Some x, Some y => R x y | None, None => True | _, _ => False end.
Proof. induction 1; intros [|i]; cbn; auto. apply IHForall2. Qed.

Lemma F2_len : forall {A B} (R : A -> B -> Prop) l l', Forall2 R l l' -> length l = length l'.
Proof. induction 1; cbn; auto. Qed.

Lemma F2_setnth : forall {A B} (R : A -> B -> Prop) l l', Forall2 R l l' -> forall i x y, R x y ->
  Forall2 R (set_nth i x l) (set_nth i y l').
Proof. induction 1; intros [|i] a b H1; cbn; auto. Qed.

Lemma strict_rel : forall k r r', Forall2 orel r r' -> forall x y, vrel x y ->
  strictrel (strict_fuel k r x) (strict_fuel k r' y).
Proof.
  induction k; intros r r' F x y V; destruct V; cbn; try (constructor; [constructor; auto|discriminate]).
  - pose proof (F2_nth_error _ _ _ F l) as H. destruct (nth_error r l) as [[a|]|], (nth_error r' l) as [[b|]|]; cbn in H; try contradiction; constructor.
  - pose proof (F2_nth_error _ _ _ F l) as H. destruct (nth_error r l) as [[a|]|], (nth_error r' l) as [[b|]|]; cbn in H; try contradiction; try constructor.
    apply IHk; auto.
Qed.

Lemma strict_value_rel : forall s t x y, srel s t -> vrel x y ->
  strictrel (strict_value (refs s) x) (strict_value (refs t) y).
Proof. intros s t x y [H _] V. unfold strict_value. rewrite (F2_len _ _ _ H). apply strict_rel; auto. Qed.

Lemma new_ref_rel : forall s t, srel s t ->
  vrel (fst (new_ref s)) (fst (new_ref t)) /\ srel (snd (new_ref s)) (snd (new_ref t)).
Proof.
  intros s t [H D]. cbn. rewrite (F2_len _ _ _ H). split; [constructor|]. split; cbn; auto.
  apply Forall2_app; auto. constructor; cbn; auto.
Qed.

Lemma unwrap_rel : forall k r r', Forall2 orel r r' -> forall x y, vrel x y ->
  orel (unwrap_fuel k r x) (unwrap_fuel k r' y).
Proof.
  induction k; intros r r' F x y V; destruct V; cbn; try (constructor; auto; fail).
  - pose proof (F2_nth_error _ _ _ F l) as H. destruct (nth_error r l) as [[a|]|], (nth_error r' l) as [[b|]|]; cbn in H; try contradiction; cbn; auto; constructor.
  - pose proof (F2_nth_error _ _ _ F l) as H. destruct (nth_error r l) as [[a|]|], (nth_error r' l) as [[b|]|]; cbn in H; try contradiction; cbn; auto; try constructor.
Qed.

Lemma assign_ref_rel : forall s t x y a b, srel s t -> vrel x y -> vrel a b ->
  match assign_ref s x a, assign_ref t y b with
  | Some (Some s'), Some (Some t') => srel s' t'
  | Some None, Some None => True
  | None, None => True
  | _, _ => False
  end.
Proof.
  intros s t x y a b [H D] V W. destruct V; cbn; auto.
  rewrite (F2_len _ _ _ H). pose proof (unwrap_rel (length (refs t)) _ _ H _ _ W) as U.
  destruct (unwrap_fuel (length (refs t)) (refs s) a) as [u|], (unwrap_fuel (length (refs t)) (refs t) b) as [v|]; cbn in U; try contradiction; auto.
  destruct U; try (split; cbn; auto; apply F2_setnth; auto; cbn; constructor; auto; fail).
  destruct (l0 =? l); auto. split; cbn; auto. apply F2_setnth; auto. cbn. constructor.
Qed.

Lemma list_value_rel : forall xs ys, Forall2 vrel xs ys -> vrel (list_value xs) (list_value ys).
Proof. induction 1; cbn; repeat constructor; auto. Qed.

Lemma literal_value_rel : forall l, vrel (literal_value l) (literal_value l).
Proof. intros l. apply list_value_rel. induction l; cbn; constructor; auto. constructor. constructor. constructor. Qed.

Lemma num_args_rel : forall x y, vrel x y -> num_args_of x = num_args_of y.
Proof. destruct 1; reflexivity. Qed.

Lemma log_srel : forall s t e, srel s t -> srel (log e s) t.
Proof. intros s t e [H1 H2]. split; auto. Qed.

Lemma do_ops_srel : forall blk ops s t, srel s t -> srel (do_ops blk ops s) t.
Proof.
  unfold do_ops. induction ops as [|o ops IH]; intros s t H; cbn; auto.
Qed.

(** ** Runs of the interpreter loop that only go forward *)
Section runs.
  Variable callf : cst -> cval -> list cval -> cres.
  Variables (blk : nat) (statics args : list cval) (I : list (list prof_op * instr)).

  Inductive steps : nat -> regs -> cst -> nat -> regs -> cst -> Prop :=
  | steps_refl pc l s : steps pc l s pc l s
  | steps_step pc l s ops i pc1 l1 s1 pc2 l2 s2 :
      nth_error I pc = Some (ops, i) -> exec callf blk statics args i pc l (do_ops blk ops s) = Next pc1 l1 s1 ->
      pc < pc1 -> steps pc1 l1 s1 pc2 l2 s2 -> steps pc l s pc2 l2 s2.

  Inductive stops : nat -> regs -> cst -> out code -> cst -> Prop :=
  | stops_stop pc l s ops i o s1 :
      nth_error I pc = Some (ops, i) -> exec callf blk statics args i pc l (do_ops blk ops s) = Stop o s1 ->
      stops pc l s o s1
  | stops_step pc l s ops i pc1 l1 s1 o s2 :
      nth_error I pc = Some (ops, i) -> exec callf blk statics args i pc l (do_ops blk ops s) = Next pc1 l1 s1 ->
      pc < pc1 -> stops pc1 l1 s1 o s2 -> stops pc l s o s2.

  Lemma steps_trans : forall pc l s pc1 l1 s1 pc2 l2 s2,
    steps pc l s pc1 l1 s1 -> steps pc1 l1 s1 pc2 l2 s2 -> steps pc l s pc2 l2 s2.
  Proof. induction 1; intros; auto. econstructor; eauto. Qed.

  Lemma steps_stops : forall pc l s pc1 l1 s1 o s2,
    steps pc l s pc1 l1 s1 -> stops pc1 l1 s1 o s2 -> stops pc l s o s2.
  Proof. induction 1; intros; auto. eapply stops_step; eauto. Qed.

  Lemma stops_loop : forall pc l s o s', stops pc l s o s' -> forall k, length I <= k + pc ->
    loop callf blk statics args k I pc l s = (o, s').
  Proof.
    induction 1 as [pc l s ops i o s1 H H1|pc l s ops i pc1 l1 s1 o s2 H H0 H1 H2 IH]; intros k L.
    - assert (pc < length I) by (apply nth_error_Some; congruence).
      destruct k; [lia|]. cbn [loop]. rewrite H, H1. reflexivity.
    - assert (pc < length I) by (apply nth_error_Some; congruence).
      destruct k; [lia|]. cbn [loop]. rewrite H, H0. apply IH. lia.
  Qed.
End runs.
