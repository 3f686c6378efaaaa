(** * Compiled code computes what the program means (C19). *)
From Coq Require Import List Arith Lia Bool.
From Verif Require Import FuncModel FuncProps CodeModel CompileModel CompileEval CompileStatic CompileRel CompileDyn CompileCalls CodeProps TcSpec TcRel TcComplete TcCalls TcSound.
Import ListNotations.

(** ** What can be seen of a value
    A value, of the machine or of the semantics, unfolded: the variables of recursive lets
    are replaced by their values; functions are opaque, one can only call them. *)
Inductive tree := Struct (fields : list tree) | Union (tag : nat) (arg : tree) | Function | Type_.

Notation mval := (val code).

Inductive machine_tree (w : list (option mval)) : mval -> tree -> Prop :=
| mt_struct xs ts : machine_trees w xs ts -> machine_tree w (VStruct xs) (Struct ts)
| mt_union t x u : machine_tree w x u -> machine_tree w (VUnion t x) (Union t u)
| mt_func n c k xs : machine_tree w (VFunc n c k xs) Function
| mt_papp n k f xs : machine_tree w (VPapp n k f xs) Function
| mt_type : machine_tree w VType Type_
| mt_ref l v t : nth_error w l = Some (Some v) -> machine_tree w v t -> machine_tree w (VRef l) t
with machine_trees (w : list (option mval)) : list mval -> list tree -> Prop :=
| mts_nil : machine_trees w [] []
| mts_cons x xs t ts : machine_tree w x t -> machine_trees w xs ts -> machine_trees w (x :: xs) (t :: ts).

Inductive semantic_tree (S : store) : sval -> tree -> Prop :=
| st_struct xs ts : semantic_trees S xs ts -> semantic_tree S (SStruct xs) (Struct ts)
| st_union t x u : semantic_tree S x u -> semantic_tree S (SUnion t x) (Union t u)
| st_closure ss b : semantic_tree S (SClosure ss b) Function
| st_type : semantic_tree S SType Type_
| st_ref l v t : nth_error S l = Some (Some v) -> semantic_tree S v t -> semantic_tree S (SRef l) t
with semantic_trees (S : store) : list sval -> list tree -> Prop :=
| sts_nil : semantic_trees S [] []
| sts_cons x xs t ts : semantic_tree S x t -> semantic_trees S xs ts -> semantic_trees S (x :: xs) (t :: ts).

Scheme machine_tree_mind := Minimality for machine_tree Sort Prop
  with machine_trees_mind := Minimality for machine_trees Sort Prop.
Scheme semantic_tree_mind := Minimality for semantic_tree Sort Prop
  with semantic_trees_mind := Minimality for semantic_trees Sort Prop.

(** ** What it means for the machine to be faithful to the semantics
    [R s vs S xs]: a client that holds the values [vs] of the machine in state [s] cannot
    tell them from the values [xs] of the semantics in store [S]. *)
Definition indistinguishable := st code -> list mval -> store -> list sval -> Prop.

(** The machine's answer (with enough fuel for nested calls) and the semantics' result:
    every result of the semantics is what the machine answers, and every answer of the
    machine is a result of the semantics. *)
Definition same_answers (R : indistinguishable) (s : st code) (vs : list mval) (xs : list sval)
    (machine : nat -> res code) (semantics : result -> Prop) : Prop :=
  (forall r, semantics r -> exists o s' n0, (forall n, n0 <= n -> machine n = (o, s')) /\ depth s' = depth s /\
     match r with
     | None => o = Abort
     | Some (x, S') => exists v, o = Ret v /\ R s' (v :: vs) S' (x :: xs)
     end) /\
  (forall n o s', machine n = (o, s') ->
     match o with
     | Ret v => exists x S', semantics (Some (x, S')) /\ R s' (v :: vs) S' (x :: xs)
     | Abort => semantics None
     | Tail _ _ => False
     | Crash | Timeout => True
     end).

Fixpoint pick {A} (l : list A) (is : list nat) : list A :=
  match is with
  | [] => []
  | i :: r => match nth_error l i with Some x => x :: pick l r | None => pick l r end
  end.

Record faithful (R : indistinguishable) : Prop := {
  (** Before anything has been run. *)
  f_start : forall d p, R (mk_st [] d p) [] [] [];
  (** What can be seen of a value is the same. *)
  f_observe : forall s vs S xs i v x, R s vs S xs -> nth_error vs i = Some v -> nth_error xs i = Some x ->
    forall t, machine_tree (refs s) v t <-> semantic_tree S x t;
  (** The client can put known values into new data. *)
  f_new_struct : forall s vs S xs is, R s vs S xs -> R s (VStruct (pick vs is) :: vs) S (SStruct (pick xs is) :: xs);
  f_new_union : forall s vs S xs t i v x, R s vs S xs -> nth_error vs i = Some v -> nth_error xs i = Some x ->
    R s (VUnion t v :: vs) S (SUnion t x :: xs);
  (** Running the code compiled from a program of [nargs] arguments (a module, whose
      arguments are the modules it uses). *)
  f_program : forall s vs S xs nargs e c nblocks blk is, R s vs S xs ->
    wf 0 nargs [] e = true -> compile_code nargs e = Some (c, nblocks) ->
    length is = nargs -> (forall i, In i is -> i < length vs) ->
    same_answers R s vs xs (fun n => icall n s (VFunc nargs c blk []) (pick vs is))
      (fun r => exists cost, eval [] (pick xs is) [] S e r cost);
  (** Calling a known function with known arguments. *)
  f_call : forall s vs S xs i f g is, R s vs S xs -> nth_error vs i = Some f -> nth_error xs i = Some g ->
    is <> [] -> (forall i, In i is -> i < length vs) ->
    same_answers R s vs xs (fun n => icall n s f (pick vs is)) (fun r => exists cost, apps S g (pick xs is) r cost) }.

(** ** The relation *)
Definition agrees : indistinguishable := fun s vs S xs => exists (us : list eval_val) (t : eval_st),
  srel s t /\ strel (refs t) S /\ Forall2 vrel vs us /\ Forall2 (erel (refs t)) us xs.

Lemma pick_rel : forall {A B} (R : A -> B -> Prop) l l', Forall2 R l l' -> forall is, Forall2 R (pick l is) (pick l' is).
Proof.
  intros A B R l l' F is. induction is as [|i is IH]; cbn; [constructor|].
  pose proof (F2_nth_error _ _ _ F i) as N. destruct (nth_error l i), (nth_error l' i); try contradiction; auto.
Qed.

Lemma pick_length : forall {A} (l : list A) is, (forall i, In i is -> i < length l) -> length (pick l is) = length is.
Proof.
  intros A l is. induction is as [|i is IH]; intros H; cbn; auto.
  destruct (nth_error l i) eqn:E; [|apply nth_error_None in E; specialize (H i (or_introl eq_refl)); lia].
  cbn. f_equal. apply IH. intros j Hj. apply H. right. auto.
Qed.

(** *** Observations *)
Inductive eval_tree (w : estore) : eval_val -> tree -> Prop :=
| et_struct xs ts : eval_trees w xs ts -> eval_tree w (VStruct xs) (Struct ts)
| et_union t x u : eval_tree w x u -> eval_tree w (VUnion t x) (Union t u)
| et_func n c k xs : eval_tree w (VFunc n c k xs) Function
| et_papp n k f xs : eval_tree w (VPapp n k f xs) Function
| et_type : eval_tree w VType Type_
| et_ref l v t : nth_error w l = Some (Some v) -> eval_tree w v t -> eval_tree w (VRef l) t
with eval_trees (w : estore) : list eval_val -> list tree -> Prop :=
| ets_nil : eval_trees w [] []
| ets_cons x xs t ts : eval_tree w x t -> eval_trees w xs ts -> eval_trees w (x :: xs) (t :: ts).
Scheme eval_tree_mind := Minimality for eval_tree Sort Prop
  with eval_trees_mind := Minimality for eval_trees Sort Prop.

Lemma machine_eval_tree : forall w w', Forall2 orel w w' -> forall v t, machine_tree w v t ->
  forall u, vrel v u -> eval_tree w' u t.
Proof.
  intros w w' F. apply (machine_tree_mind w (fun v t => forall u, vrel v u -> eval_tree w' u t)
    (fun vs ts => forall us, Forall2 vrel vs us -> eval_trees w' us ts)).
  - intros xs ts _ H u V. inversion V; subst. constructor. auto.
  - intros t x u _ H u' V. inversion V; subst. constructor. auto.
  - intros n c k xs u V. inversion V; subst. constructor.
  - intros n k f xs u V. inversion V; subst. constructor.
  - intros u V. inversion V; subst. constructor.
  - intros l v t N _ H u V. inversion V; subst. match type of N with nth_error _ ?k = _ => pose proof (F2_nth_error _ _ _ F k) as O; rewrite N in O; rename k into l1 end.
    destruct (nth_error w' l1) as [[x|]|] eqn:E; cbn in O; try contradiction. econstructor; eauto.
  - intros us V. inversion V. constructor.
  - intros x xs t ts _ H1 _ H2 us V. inversion V; subst. constructor; auto.
Qed.

Lemma eval_machine_tree : forall w w', Forall2 orel w w' -> forall u t, eval_tree w' u t ->
  forall v, vrel v u -> machine_tree w v t.
Proof.
  intros w w' F. apply (eval_tree_mind w' (fun u t => forall v, vrel v u -> machine_tree w v t)
    (fun us ts => forall vs, Forall2 vrel vs us -> machine_trees w vs ts)).
  - intros xs ts _ H u V. inversion V; subst. constructor. auto.
  - intros t x u _ H u' V. inversion V; subst. constructor. auto.
  - intros n c k xs u V. inversion V; subst. constructor.
  - intros n k f xs u V. inversion V; subst. constructor.
  - intros u V. inversion V; subst. constructor.
  - intros l v t N _ H u V. inversion V; subst. match type of N with nth_error _ ?k = _ => pose proof (F2_nth_error _ _ _ F k) as O; rewrite N in O; rename k into l1 end.
    destruct (nth_error w l1) as [[x|]|] eqn:E; cbn in O; try contradiction. econstructor; eauto.
  - intros us V. inversion V. constructor.
  - intros x xs t ts _ H1 _ H2 us V. inversion V; subst. constructor; auto.
Qed.

Lemma eval_semantic_tree : forall w S, strel w S -> forall u t, eval_tree w u t ->
  forall x, erel w u x -> semantic_tree S x t.
Proof.
  intros w S R. apply (eval_tree_mind w (fun u t => forall x, erel w u x -> semantic_tree S x t)
    (fun us ts => forall xs, Forall2 (erel w) us xs -> semantic_trees S xs ts)).
  - intros xs ts _ H u V. inversion V; subst. constructor. auto.
  - intros t x u _ H u' V. inversion V; subst. constructor. auto.
  - intros n c k xs u V. inversion V; subst. constructor.
  - intros n k f xs u V. inversion V; subst. constructor.
  - intros u V. inversion V; subst. constructor.
  - intros l v t N _ H u V. inversion V; subst. match type of N with nth_error _ ?k = _ => pose proof (F2_nth_error _ _ _ R k) as O; rewrite N in O; rename k into l1 end.
    destruct (nth_error S l1) as [[x|]|] eqn:E; cbn in O; try contradiction. econstructor; eauto.
  - intros us V. inversion V. constructor.
  - intros x xs t ts _ H1 _ H2 us V. inversion V; subst. constructor; auto.
Qed.

Lemma semantic_eval_tree : forall w S, strel w S -> forall x t, semantic_tree S x t ->
  forall u, erel w u x -> eval_tree w u t.
Proof.
  intros w S R. apply (semantic_tree_mind S (fun x t => forall u, erel w u x -> eval_tree w u t)
    (fun xs ts => forall us, Forall2 (erel w) us xs -> eval_trees w us ts)).
  - intros xs ts _ H u V. inversion V; subst. constructor. auto.
  - intros t x u _ H u' V. inversion V; subst. constructor. auto.
  - intros ss b u V. inversion V; subst; constructor.
  - intros u V. inversion V; subst. constructor.
  - intros l v t N _ H u V. inversion V; subst. match type of N with nth_error _ ?k = _ => pose proof (F2_nth_error _ _ _ R k) as O; rewrite N in O; rename k into l1 end.
    destruct (nth_error w l1) as [[x|]|] eqn:E; cbn in O; try contradiction. econstructor; eauto.
  - intros us V. inversion V. constructor.
  - intros x xs t ts _ H1 _ H2 us V. inversion V; subst. constructor; auto.
Qed.

(** *** Answers *)
Lemma icall_stable : forall n m s f xs, n <= m -> done (icall n s f xs) -> icall m s f xs = icall n s f xs.
Proof. intros n m s f xs L D. unfold icall in *. apply (proj1 (extends_le _ _ interpret_good n m L) s f xs D). Qed.

Lemma icall_depth : forall n s f xs, match icall n s f xs with (Ret _, s') | (Abort, s') => depth s' = depth s | (Tail _ _, _) => False | _ => True end.
Proof. intros. unfold icall. apply (proj1 (call_balanced _ _ interpret_good n)). Qed.

Lemma same_from_eval : forall s vs S xs us t f args (ref : nat -> res tc) (D : result -> nat -> Prop),
  srel s t -> Forall2 vrel vs us -> Forall2 (erel (refs t)) us xs -> strel (refs t) S ->
  (forall n, rrel (icall n s f args) (ref n)) ->
  (forall r c, D r c -> exists q m0, (forall m, m0 <= m -> ref m = q) /\ answers t (depth t) q r) ->
  (forall n, explained t (ref n) D) ->
  same_answers agrees s vs xs (fun n => icall n s f args) (fun r => exists cost, D r cost).
Proof.
  intros s vs S xs us t f args ref D Sr Fv Fe R Rel Comp Sound. split.
  - intros r [c Hr]. destruct (Comp r c Hr) as [q [m0 [E A]]].
    pose proof (Rel m0) as [R1 R2]. rewrite (E m0 (le_n _)) in R1, R2. pose proof (icall_depth m0 s f args) as Dp.
    destruct (icall m0 s f args) as [o s'] eqn:Em. cbn in R1, R2.
    exists o, s', m0. destruct r as [[x S']|].
    + destruct A as [v' [t' [-> [V [R' [G _]]]]]]. cbn in R1, R2. inversion R1; subst o.
      split; [|split; auto].
      * intros n L. rewrite <- Em. apply icall_stable; auto. rewrite Em. intros Q. discriminate.
      * eexists. split; [reflexivity|]. eexists (v' :: us), t'. split; auto. split; auto. split; constructor; auto.
        eapply valsrel_mono; [apply grow_wle; exact G|auto].
    + destruct A as [t' [-> _]]. cbn in R1. inversion R1; subst o.
      split; [|split; auto]. intros n L. rewrite <- Em. apply icall_stable; auto. rewrite Em. intros Q. discriminate.
  - intros n o s' Em. pose proof (Rel n) as [R1 R2]. pose proof (icall_depth n s f args) as Dp. rewrite Em in R1, R2, Dp.
    pose proof (Sound n) as X. destruct (ref n) as [q t'] eqn:Eq. cbn in R1, R2.
    inversion R1; subst; auto.
    + destruct X as [v [S' [c [HD [V [R' G]]]]]]. exists v, S'. split; [eauto|].
      match goal with H : vrel _ ?y |- _ => exists (y :: us), t' end. split; [exact R2|]. split; auto. split; constructor; auto.
      eapply valsrel_mono; [apply grow_wle; exact G|auto].
Qed.

Lemma map_same : forall {A} (f : A -> A) l, Forall (fun x => f x = x) l -> map f l = l.
Proof. induction 1; cbn; auto. congruence. Qed.

Lemma rewrite_nothing : forall e, rewrite_vars [] 0 e = e.
Proof.
  assert (Hv : forall v, rewrite_var [] 0 v = v).
  { intros [i|i|i]; cbn; rewrite ?Nat.add_0_r; try (destruct i); reflexivity. }
  induction e using tc_ind'; cbn [rewrite_vars]; rewrite ?Hv; f_equal; auto; try (apply map_same; auto; fail).
  - apply map_same. eapply Forall_impl; [|eassumption]. intros [x|] Hx; cbn; auto. rewrite Hx. reflexivity.
  - apply map_same. eapply Forall_impl; [|eassumption]. intros [t x] Hx; cbn in *. rewrite Hx. reflexivity.
  - apply map_same. apply Forall_forall. auto.
Qed.

(** *** Programs *)
Lemma program_frame : forall w args xs, Forall2 (erel w) args xs -> frame w [] 0 [] args [] xs.
Proof.
  intros w args xs F. split; [constructor|]. intros i x H. rewrite Nat.add_0_r.
  pose proof (F2_nth_error _ _ _ F i) as N. rewrite H in N. destruct (nth_error args i); [eauto|contradiction].
Qed.

Lemma program_complete : forall e nargs blk t args xs S r c, wf 0 nargs [] e = true -> length xs = nargs ->
  Forall2 (erel (refs t)) args xs -> strel (refs t) S -> eval [] xs [] S e r c ->
  exists q m0, (forall m, m0 <= m -> ecall m t (VFunc nargs e blk []) args = q) /\ answers t (depth t) q r.
Proof.
  intros e nargs blk t args xs S r c W L F R E. pose proof (F2_len _ _ _ F) as La.
  assert (Hc : forall x, x <= c -> calls_ok x) by (intros; apply complete_calls).
  set (t1 := enter _ (VFunc nargs e blk []) t). subst nargs.
  destruct (complete_eval c Hc _ _ _ _ _ _ _ E (le_n _) true [] 0 [] args [] [] t1 (program_frame _ _ _ F) (Forall2_nil _) W R) as [q [m0 [Eq Q]]].
  rewrite rewrite_nothing in Eq.
  assert (IHc : forall c', c' < c + 2 -> calls_ok c' /\ tails_ok c') by (intros; apply complete_calls).
  assert (Q' : answers t1 (depth t1) q r \/ tails t1 q r (c + 1 - 1)).
  { destruct Q as [Q|[_ Q]]; auto. right. replace (c + 1 - 1) with c by lia. auto. }
  destruct (after_ok (c + 2) IHc false t1 q r r (c + 1) 0 [] [] (match r with Some (_, S2) => S2 | None => [] end) (depth t)) as [q2 [m2 [E2 A2]]]; auto; try lia.
  { destruct r as [[g S2]|]; auto. split; auto. constructor. }
  exists (fst q2, log PExit (snd q2)), (Datatypes.S (max m0 m2)). split.
  - intros m Hm. destruct m; [lia|]. unfold ecall.
    rewrite (call_eq _ _ m t (VFunc (length xs) e blk []) (VFunc (length xs) e blk []) (length xs) args); auto; [|destruct (refs t); reflexivity|lia].
    cbn [run_fn]. rewrite firstn_all2, skipn_all2 by lia. fold t1.
    assert (Er : ev_run (call ev_run m) e blk [] args t1 = q) by (apply (Eq m); lia). rewrite Er.
    specialize (E2 m ltac:(lia)). cbn [after_both] in E2. rewrite E2. reflexivity.
  - apply answers_log. eapply answers_refs; [|exact A2]. reflexivity.
Qed.

Lemma program_sound : forall e nargs blk t args xs S n, wf 0 nargs [] e = true -> length xs = nargs ->
  Forall2 (erel (refs t)) args xs -> strel (refs t) S ->
  explained t (ecall n t (VFunc nargs e blk []) args) (eval [] xs [] S e).
Proof.
  intros e nargs blk t args xs S n W L F R. pose proof (F2_len _ _ _ F) as La. destruct n as [|m]; [exact I|].
  set (t1 := enter _ (VFunc nargs e blk []) t). subst nargs.
  destruct (sound_calls m) as [[F1 F2] [C1 C2]].
  pose proof (sound_all _ C1 _ e (le_n _) true [] 0 [] args [] [] t1 [] xs [] S (program_frame _ _ _ F) (Forall2_nil _) (Forall2_nil _) W R) as X.
  rewrite rewrite_nothing in X. unfold ecall.
  rewrite (call_eq _ _ m t (VFunc (length xs) e blk []) (VFunc (length xs) e blk []) (length xs) args); auto; [|destruct (refs t); reflexivity|lia].
  cbn [run_fn]. rewrite firstn_all2, skipn_all2 by lia. fold t1. apply explained_log. apply (explained_refs t1); [reflexivity|].
  change (ev (ecall m) [] args true e [] t1) with (ev_run (call ev_run m) e blk [] args t1) in X.
  destruct (ev_run (call ev_run m) e blk [] args t1) as [[v'|g' ys'| | |] s'] eqn:Ev; cbn [after_call]; try exact I; try (apply explained_pop; exact X).
  destruct X as [g [ys [S' [V [Fy [Ny [R' [G A]]]]]]]]. rewrite app_nil_r.
  eapply explained_later; [exact G|]. eapply explained_weaken; [|apply (C2 s' g' ys' g ys S'); auto]. exact A.
Qed.

Theorem compiler_faithful : faithful agrees.
Proof.
  split.
  - intros d p. exists [], (mk_st [] d p). split; [split; constructor|]. split; [constructor|]. split; constructor.
  - intros s vs S xs i v x [us [t [[Sr _] [R [Fv Fe]]]]] Nv Nx tr.
    pose proof (F2_nth_error _ _ _ Fv i) as A. rewrite Nv in A. destruct (nth_error us i) as [u|] eqn:Nu; [|contradiction].
    pose proof (F2_nth_error _ _ _ Fe i) as B. rewrite Nu, Nx in B. split; intros H.
    + eapply eval_semantic_tree; eauto. eapply machine_eval_tree; eauto.
    + eapply eval_machine_tree; eauto. eapply semantic_eval_tree; eauto.
  - intros s vs S xs is [us [t [Sr [R [Fv Fe]]]]]. exists (VStruct (pick us is) :: us), t. split; auto. split; auto.
    split; constructor; auto; constructor; apply pick_rel; auto.
  - intros s vs S xs k i v x [us [t [Sr [R [Fv Fe]]]]] Nv Nx.
    pose proof (F2_nth_error _ _ _ Fv i) as A. rewrite Nv in A. destruct (nth_error us i) as [u|] eqn:Nu; [|contradiction].
    pose proof (F2_nth_error _ _ _ Fe i) as B. rewrite Nu, Nx in B.
    exists (VUnion k u :: us), t. split; auto. split; auto. split; constructor; auto; constructor; auto.
  - intros s vs S xs nargs e c nb blk is [us [t [Sr [R [Fv Fe]]]]] W E Li Hi.
    destruct (compile_total nargs e W) as [c' [nb' [E' [C [Na Ns]]]]]. rewrite E in E'. injection E' as <- <-.
    pose proof (F2_len _ _ _ Fv) as L1. pose proof (F2_len _ _ _ Fe) as L2.
    assert (Lx : length (pick xs is) = nargs) by (rewrite pick_length; auto; intros j Hj; specialize (Hi j Hj); lia).
    eapply (same_from_eval s vs S xs us t _ _ (fun n => ecall n t (VFunc nargs e blk []) (pick us is))); eauto.
    + intros n. apply call_rel; auto; [|apply pick_rel; auto]. constructor; auto.
    + intros r k Ev. eapply program_complete; eauto. apply pick_rel. auto.
    + intros n. apply program_sound; auto. apply pick_rel. auto.
  - intros s vs S xs i f g is [us [t [Sr [R [Fv Fe]]]]] Nf Ng Ni Hi.
    pose proof (F2_nth_error _ _ _ Fv i) as A. rewrite Nf in A. destruct (nth_error us i) as [u|] eqn:Nu; [|contradiction].
    pose proof (F2_nth_error _ _ _ Fe i) as B. rewrite Nu, Ng in B.
    pose proof (F2_len _ _ _ Fv) as L1. pose proof (F2_len _ _ _ Fe) as L2.
    assert (Np : pick xs is <> []).
    { intros Ep. apply (f_equal (@length _)) in Ep. rewrite pick_length in Ep; [destruct is; [congruence|discriminate]|].
      intros j Hj. specialize (Hi j Hj). lia. }
    eapply (same_from_eval s vs S xs us t _ _ (fun n => ecall n t u (pick us is))); eauto.
    + intros n. apply call_rel; auto. apply pick_rel; auto.
    + intros r k Ev. destruct (complete_calls k) as [Ck _]. eapply Ck; eauto. apply pick_rel. auto.
    + intros n. apply sound_calls; auto. apply pick_rel. auto.
Qed.

(** The code of every well scoped program can be generated, and the meaning of a program is
    unique: whatever order its rules are used in, what can be seen of the result is the same. *)
Theorem program_compiles : forall nargs e, wf 0 nargs [] e = true -> exists c nblocks, compile_code nargs e = Some (c, nblocks).
Proof. intros nargs e W. destruct (compile_total nargs e W) as [c [nb [E _]]]. eauto. Qed.

Theorem program_meaning_unique : forall e x S cost, wf 0 0 [] e = true -> eval [] [] [] [] e (Some (x, S)) cost ->
  forall r cost', eval [] [] [] [] e r cost' ->
  exists y S', r = Some (y, S') /\ forall t, semantic_tree S x t <-> semantic_tree S' y t.
Proof.
  intros e x S cost W E r cost' E'. destruct compiler_faithful as [F1 F2 _ _ F5 _].
  destruct (program_compiles _ _ W) as [c [nb Ec]].
  destruct (F5 _ _ _ _ 0 e c nb 0 [] (F1 0 []) W Ec eq_refl) as [A _]; [contradiction|].
  destruct (A _ (ex_intro _ _ E)) as [o [s [n [M [_ [v [-> R]]]]]]].
  destruct (A _ (ex_intro _ _ E')) as [o' [s' [n' [M' [_ Q]]]]].
  assert (Eq : (Ret v, s) = (o', s')) by (rewrite <- (M (max n n')), <- (M' (max n n')) by lia; reflexivity).
  injection Eq as <- <-. destruct r as [[y S']|]; [|discriminate]. destruct Q as [v' [Ev R']]. injection Ev as <-.
  exists y, S'. split; auto. intros t.
  rewrite <- (F2 _ _ _ _ 0 _ _ R eq_refl eq_refl t). apply (F2 _ _ _ _ 0 _ _ R' eq_refl eq_refl t).
Qed.

(** ** An example: a recursive function that counts down a chain of unions. *)
Definition count_down : tc :=
  TLet true
    [TFunc [Local 0] (TSelect (TVar (Arg 0)) 2 [(0, TApply (TVar (Static 0)) (TAccess false (TVar (Arg 0)) 0))] (TStruct [TVar (Arg 0)]))]
    (TApply (TVar (Local 0)) (TUnion 0 (TUnion 0 (TUnion 1 (TStruct []))))).

Example count_down_wf : wf 0 0 [] count_down = true.
Proof. reflexivity. Qed.

Definition counter : sval := SClosure [SRef 0] (TSelect (TVar (Arg 0)) 2 [(0, TApply (TVar (Static 0)) (TAccess false (TVar (Arg 0)) 0))] (TStruct [TVar (Arg 0)])).

Example count_down_means : exists cost, eval [] [] [] [] count_down (Some (SStruct [SUnion 1 (SStruct [])], [Some counter])) cost.
Proof.
  set (Sf := [Some counter] : store).
  assert (Base : exists c, apps Sf (SRef 0) [SUnion 1 (SStruct [])] (Some (SStruct [SUnion 1 (SStruct [])], Sf)) c).
  { eexists. eapply apps_cons; [eapply chain_step; [reflexivity|constructor; discriminate]| |constructor].
    eapply eval_select_default.
    - apply eval_var. reflexivity.
    - constructor. discriminate.
    - auto.
    - cbn. intros [H|[]]. discriminate.
    - eapply eval_struct. eapply evals_cons; [apply eval_var; reflexivity|constructor]. }
  assert (Step : forall v c, apps Sf (SRef 0) [v] (Some (SStruct [SUnion 1 (SStruct [])], Sf)) c ->
    exists c', apps Sf (SRef 0) [SUnion 0 v] (Some (SStruct [SUnion 1 (SStruct [])], Sf)) c').
  { intros v c A. eexists. eapply apps_cons; [eapply chain_step; [reflexivity|constructor; discriminate]| |constructor].
    eapply eval_select.
    - apply eval_var. reflexivity.
    - constructor. discriminate.
    - auto.
    - left. reflexivity.
    - apply (eval_apply _ _ _ _ (TVar (Static 0)) [TAccess false (TVar (Arg 0)) 0]) with (f := SRef 0) (S1 := Sf) (vs := [v]) (S2 := Sf) (c1 := 0) (c2 := 0 + 0); auto.
      + discriminate.
      + apply eval_var. reflexivity.
      + eapply evals_cons; [|constructor]. eapply eval_untag; [apply eval_var; reflexivity|]. constructor. discriminate.
      + exact A. }
  destruct Base as [c0 B0]. destruct (Step _ _ B0) as [c1 B1]. destruct (Step _ _ B1) as [c2 B2].
  eexists. eapply (eval_letrec _ _ _ _ _ _ [counter] [None]).
  - eapply evals_cons; [|constructor]. apply eval_func. constructor; [reflexivity|constructor].
  - eapply ties_cons; [constructor; discriminate|discriminate|]. constructor.
  - apply (eval_apply _ _ _ _ (TVar (Local 0)) [TUnion 0 (TUnion 0 (TUnion 1 (TStruct [])))]) with (f := counter) (S1 := Sf) (vs := [SUnion 0 (SUnion 0 (SUnion 1 (SStruct [])))]) (S2 := Sf) (c1 := 0) (c2 := 0 + 0); auto.
    + discriminate.
    + apply eval_var. reflexivity.
    + eapply evals_cons; [|constructor]. repeat apply eval_union. apply eval_struct. constructor.
    + apply (apps_closure _ (SRef 0)); [|exact B2]. eapply chain_step; [reflexivity|]. constructor. discriminate.
Qed.

(** The machine gets there, too (here computed; in general by [compiler_faithful]). *)
Example count_down_runs :
  match compile_code 0 count_down with
  | Some (c, _) => fst (icall 10 (mk_st [] 0 []) (VFunc 0 c 0 []) []) = Ret (VStruct [VUnion 1 (VStruct [])])
  | None => False
  end.
Proof. vm_compute. reflexivity. Qed.
