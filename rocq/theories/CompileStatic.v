(** * The compiler's bookkeeping: reference counts of locals, and totality of CompileExpr. *)
From Coq Require Import List Arith Lia Bool.
From Verif Require Import FuncModel CodeModel CompileModel CompileEval.
Import ListNotations.

Lemma var_dec : forall v w : var, {v = w} + {v <> w}.
Proof. decide equality; apply Nat.eq_dec. Qed.

(** How often [v] is in a list of locals. *)
Fixpoint occ (v : var) (l : list (option var)) : nat :=
  match l with
  | [] => 0
  | Some w :: r => (if var_dec w v then 1 else 0) + occ v r
  | None :: r => occ v r
  end.

Lemma occ_app : forall v l l', occ v (l ++ l') = occ v l + occ v l'.
Proof. induction l as [|[w|] l IH]; intros l'; cbn; auto. rewrite IH. lia. Qed.

(** The references to a local beside the one the scope itself has to statics and
    arguments. *)
Definition cnt (s : cs) (v : var) : nat :=
  match v with
  | Static i => pred (nth i (srefs s) 0)
  | Arg i => pred (nth i (arefs s) 0)
  | Local i => nth i (slots s) 0
  end.

Definition base (s : cs) : Prop := Forall (fun n => 1 <= n) (srefs s) /\ Forall (fun n => 1 <= n) (arefs s).

Definition inrange (s : cs) (v : var) : Prop :=
  match v with
  | Static i => i < length (srefs s)
  | Arg i => i < length (arefs s)
  | Local i => i < length (slots s)
  end.

Definition bare (s : cs) : list instr := map snd (instrs s).

(** What compiling an expression leaves alone. *)
Record ext (s s' : cs) : Prop := {
  e_vars : vars s' = vars s;
  e_srefs : length (srefs s') = length (srefs s);
  e_arefs : length (arefs s') = length (arefs s);
  e_slots : length (slots s) <= length (slots s');
  e_bstack : bstack s' = bstack s;
  e_block : block s' = block s;
  e_base : base s -> base s';
  e_code : exists seg, bare s' = bare s ++ seg }.

Definition inv (s : cs) : Prop :=
  base s /\ (forall v, occ v (vars s) <= cnt s v) /\
  (forall i v, nth_error (vars s) i = Some (Some v) -> inrange s v).

Definition envok (bs : list bool) (s : cs) : Prop :=
  length (vars s) = length bs /\
  forall i, nth i bs false = true -> exists v, nth_error (vars s) i = Some (Some v).

Lemma ext_refl : forall s, ext s s.
Proof. intros s. constructor; auto. exists []. rewrite app_nil_r. reflexivity. Qed.

Lemma ext_trans : forall s1 s2 s3, ext s1 s2 -> ext s2 s3 -> ext s1 s3.
Proof.
  intros s1 s2 s3 [] []. constructor; try congruence; try lia; auto.
  destruct e_code0 as [x E], e_code1 as [y F]. exists (x ++ y). rewrite F, E, app_assoc. reflexivity.
Qed.

Lemma inrange_ext : forall s s' v, ext s s' -> inrange s v -> inrange s' v.
Proof. intros s s' [i|i|i] E H; destruct E; cbn in *; lia. Qed.

Lemma inv_ext : forall s s', ext s s' -> (forall v, cnt s v <= cnt s' v) -> inv s -> inv s'.
Proof.
  intros s s' E C [H1 [H2 H3]]. split; [apply (e_base _ _ E); auto|]. rewrite (e_vars _ _ E). split.
  - intros v. specialize (H2 v). specialize (C v). lia.
  - intros i v Hn. eapply inrange_ext; eauto.
Qed.

Lemma envok_ext : forall bs s s', ext s s' -> envok bs s -> envok bs s'.
Proof. intros bs s s' E. unfold envok. rewrite (e_vars _ _ E). auto. Qed.

(** ** The operations *)
Lemma set_nth_length : forall {A} n (x : A) l, length (set_nth n x l) = length l.
Proof. induction n; destruct l; cbn; auto. Qed.

Lemma nth_set_nth : forall {A} n m (x d : A) l,
  nth m (set_nth n x l) d = if (m =? n) && (n <? length l) then x else nth m l d.
Proof.
  induction n; destruct l; intros; cbn; auto.
  - destruct m; reflexivity.
  - destruct m; reflexivity.
  - destruct m; cbn; auto. rewrite andb_false_r. destruct m; reflexivity.
  - destruct m; cbn; auto. rewrite IHn. reflexivity.
Qed.

Lemma nth_error_set_nth : forall {A} n m (x : A) l,
  nth_error (set_nth n x l) m = if (m =? n) && (n <? length l) then Some x else nth_error l m.
Proof.
  induction n; destruct l; intros; cbn; auto.
  - destruct m; reflexivity.
  - destruct m; reflexivity.
  - destruct m; cbn; auto. rewrite andb_false_r. destruct m; reflexivity.
  - destruct m; cbn; auto. apply IHn.
Qed.

Lemma Forall_set_nth : forall {A} (P : A -> Prop) n x l, P x -> Forall P l -> Forall P (set_nth n x l).
Proof. induction n; intros x l Hx H; destruct H; cbn; auto. Qed.

Lemma base_nth : forall l i, Forall (fun n => 1 <= n) l -> i < length l -> 1 <= nth i l 0.
Proof. intros l i H L. rewrite Forall_forall in H. apply H. apply nth_In. auto. Qed.

Definition one (w v : var) : nat := if var_dec w v then 1 else 0.

Lemma one_same : forall v, one v v = 1.
Proof. intros. unfold one. destruct (var_dec v v); congruence. Qed.
Lemma one_occ : forall w v, occ v [Some w] = one w v.
Proof. intros. cbn. unfold one. lia. Qed.

Lemma first_free_spec : forall l, nth (first_free l) l 0 = 0 /\ first_free l <= length l.
Proof. induction l as [|[|n] l [H1 H2]]; cbn; split; auto; lia. Qed.

Lemma new_local_spec : forall s d s', new_local s = (d, s') ->
  cnt s (Local d) = 0 /\ ext s s' /\ (forall v, cnt s' v = cnt s v + one (Local d) v) /\
  inrange s' (Local d) /\ instrs s' = instrs s.
Proof.
  intros s d s' H. unfold new_local in H. injection H as <- <-.
  destruct (first_free_spec (slots s)) as [F1 F2].
  set (d := first_free (slots s)) in *.
  split; [exact F1|]. split; [|split; [|split; [|reflexivity]]].
  - constructor; cbn; auto.
    + destruct (d =? length (slots s)); [rewrite app_length; lia|rewrite set_nth_length; lia].
    + exists []. rewrite app_nil_r. reflexivity.
  - intros v. unfold one. destruct (var_dec (Local d) v) as [<-|N].
    + cbn. rewrite F1. destruct (d =? length (slots s)) eqn:E.
      * apply Nat.eqb_eq in E. rewrite E. rewrite app_nth2, Nat.sub_diag by lia. reflexivity.
      * apply Nat.eqb_neq in E. rewrite nth_set_nth, Nat.eqb_refl.
        replace (d <? length (slots s)) with true by (symmetry; apply Nat.ltb_lt; lia). reflexivity.
    + destruct v as [i|i|i]; cbn; auto. assert (Nd : i <> d) by congruence.
      destruct (d =? length (slots s)) eqn:E.
      * apply Nat.eqb_eq in E. destruct (Nat.lt_ge_cases i (length (slots s))).
        -- rewrite app_nth1 by auto. lia.
        -- rewrite nth_overflow by (rewrite app_length; cbn; lia). rewrite nth_overflow by lia. reflexivity.
      * rewrite nth_set_nth. replace (i =? d) with false by (symmetry; apply Nat.eqb_neq; auto). cbn. lia.
  - cbn. destruct (d =? length (slots s)) eqn:E.
    + apply Nat.eqb_eq in E. rewrite app_length. cbn. lia.
    + apply Nat.eqb_neq in E. rewrite set_nth_length. lia.
Qed.

Lemma retain_spec : forall s v, base s -> inrange s v ->
  ext s (retain v s) /\ (forall w, cnt (retain v s) w = cnt s w + one v w) /\ instrs (retain v s) = instrs s.
Proof.
  intros s v [B1 B2] R. unfold one. destruct v as [i|i|i]; cbn in R; (split; [|split; [|reflexivity]]).
  - constructor; cbn; auto; try (rewrite set_nth_length; auto).
    + intros _. split; auto. cbn. apply Forall_set_nth; auto; lia.
    + exists []. rewrite app_nil_r. reflexivity.
  - intros w. destruct (var_dec (Static i) w) as [<-|N].
    + cbn. rewrite nth_set_nth, Nat.eqb_refl. replace (i <? length (srefs s)) with true by (symmetry; apply Nat.ltb_lt; auto).
      cbn. pose proof (base_nth _ _ B1 R). lia.
    + destruct w as [j|j|j]; cbn; auto. rewrite nth_set_nth. replace (j =? i) with false; auto. symmetry. apply Nat.eqb_neq. congruence.
  - constructor; cbn; auto; try (rewrite set_nth_length; auto).
    + intros _. split; auto. cbn. apply Forall_set_nth; auto; lia.
    + exists []. rewrite app_nil_r. reflexivity.
  - intros w. destruct (var_dec (Arg i) w) as [<-|N].
    + cbn. rewrite nth_set_nth, Nat.eqb_refl. replace (i <? length (arefs s)) with true by (symmetry; apply Nat.ltb_lt; auto).
      cbn. pose proof (base_nth _ _ B2 R). lia.
    + destruct w as [j|j|j]; cbn; auto. rewrite nth_set_nth. replace (j =? i) with false; auto. symmetry. apply Nat.eqb_neq. congruence.
  - constructor; cbn; auto; try (rewrite set_nth_length; auto).
    exists []. rewrite app_nil_r. reflexivity.
  - intros w. destruct (var_dec (Local i) w) as [<-|N].
    + cbn. rewrite nth_set_nth, Nat.eqb_refl. replace (i <? length (slots s)) with true by (symmetry; apply Nat.ltb_lt; auto).
      cbn. lia.
    + destruct w as [j|j|j]; cbn; auto. rewrite nth_set_nth. replace (j =? i) with false; auto. symmetry. apply Nat.eqb_neq. congruence.
Qed.

Lemma release_spec : forall s v, 0 < cnt s v ->
  exists s', release (Some v) s = Some s' /\ ext s s' /\ (forall w, cnt s' w + one v w = cnt s w) /\
    instrs s' = instrs s /\ length (slots s') = length (slots s).
Proof.
  intros s v C. unfold one. destruct v as [i|i|i]; cbn in C |- *.
  - destruct (nth_error (srefs s) i) as [x|] eqn:E.
    2: { apply nth_error_None in E. rewrite nth_overflow in C by auto. cbn in C. lia. }
    assert (R : i < length (srefs s)) by (apply nth_error_Some; congruence).
    rewrite (nth_error_nth _ _ 0 E) in C. destruct x as [|[|n]]; cbn in C; try lia.
    eexists. split; [reflexivity|]. split; [|split; [|split; reflexivity]].
    + constructor; cbn; auto; try (rewrite set_nth_length; auto).
      * intros [B1 B2]. split; auto. cbn. apply Forall_set_nth; auto; lia.
      * exists []. rewrite app_nil_r. reflexivity.
    + intros w. destruct (var_dec (Static i) w) as [<-|N].
      * cbn. rewrite nth_set_nth, Nat.eqb_refl. replace (i <? length (srefs s)) with true by (symmetry; apply Nat.ltb_lt; auto).
        cbn. rewrite (nth_error_nth _ _ 0 E). cbn. lia.
      * destruct w as [j|j|j]; cbn; auto. rewrite nth_set_nth. replace (j =? i) with false; auto. symmetry. apply Nat.eqb_neq. congruence.
  - destruct (nth_error (arefs s) i) as [x|] eqn:E.
    2: { apply nth_error_None in E. rewrite nth_overflow in C by auto. cbn in C. lia. }
    assert (R : i < length (arefs s)) by (apply nth_error_Some; congruence).
    rewrite (nth_error_nth _ _ 0 E) in C. destruct x as [|[|n]]; cbn in C; try lia.
    eexists. split; [reflexivity|]. split; [|split; [|split; reflexivity]].
    + constructor; cbn; auto; try (rewrite set_nth_length; auto).
      * intros [B1 B2]. split; auto. cbn. apply Forall_set_nth; auto; lia.
      * exists []. rewrite app_nil_r. reflexivity.
    + intros w. destruct (var_dec (Arg i) w) as [<-|N].
      * cbn. rewrite nth_set_nth, Nat.eqb_refl. replace (i <? length (arefs s)) with true by (symmetry; apply Nat.ltb_lt; auto).
        cbn. rewrite (nth_error_nth _ _ 0 E). cbn. lia.
      * destruct w as [j|j|j]; cbn; auto. rewrite nth_set_nth. replace (j =? i) with false; auto. symmetry. apply Nat.eqb_neq. congruence.
  - destruct (nth_error (slots s) i) as [x|] eqn:E.
    2: { apply nth_error_None in E. rewrite nth_overflow in C by auto. cbn in C. lia. }
    assert (R : i < length (slots s)) by (apply nth_error_Some; congruence).
    rewrite (nth_error_nth _ _ 0 E) in C. destruct x as [|n]; cbn in C; try lia.
    eexists. split; [reflexivity|]. split; [|split; [|split; [reflexivity|cbn; rewrite set_nth_length; reflexivity]]].
    + constructor; cbn; auto; try (rewrite set_nth_length; auto).
      exists []. rewrite app_nil_r. reflexivity.
    + intros w. destruct (var_dec (Local i) w) as [<-|N].
      * cbn. rewrite nth_set_nth, Nat.eqb_refl. replace (i <? length (slots s)) with true by (symmetry; apply Nat.ltb_lt; auto).
        cbn. rewrite (nth_error_nth _ _ 0 E). cbn. lia.
      * destruct w as [j|j|j]; cbn; auto. rewrite nth_set_nth. replace (j =? i) with false; auto. symmetry. apply Nat.eqb_neq. congruence.
Qed.

Lemma releases_spec : forall vs s, (forall v, occ v (map Some vs) <= cnt s v) ->
  exists s', releases vs s = Some s' /\ ext s s' /\ (forall w, cnt s' w + occ w (map Some vs) = cnt s w) /\
    instrs s' = instrs s /\ length (slots s') = length (slots s).
Proof.
  induction vs as [|v vs IH]; intros s H; cbn.
  - exists s. split; auto. split; [apply ext_refl|]. split; auto.
  - destruct (release_spec s v) as [s1 [E1 [X1 [C1 [I1 L1]]]]].
    { specialize (H v). cbn in H. destruct (var_dec v v); [lia|congruence]. }
    cbn in E1. rewrite E1.
    destruct (IH s1) as [s2 [E2 [X2 [C2 [I2 L2]]]]].
    { intros w. specialize (H w). specialize (C1 w). unfold one in C1. cbn in H. lia. }
    exists s2. split; auto. split; [eapply ext_trans; eauto|]. split; [|split; congruence].
    intros w. specialize (C1 w). specialize (C2 w). unfold one in C1. lia.
Qed.

(** Operations on the code keep the counts. *)
Definition same_counts (s s' : cs) : Prop :=
  srefs s' = srefs s /\ arefs s' = arefs s /\ slots s' = slots s /\ vars s' = vars s /\
  block s' = block s.

Lemma same_counts_cnt : forall s s' v, same_counts s s' -> cnt s' v = cnt s v.
Proof. intros s s' v [H1 [H2 [H3 _]]]. unfold cnt. rewrite H1, H2, H3. reflexivity. Qed.

Lemma same_counts_trans : forall s1 s2 s3, same_counts s1 s2 -> same_counts s2 s3 -> same_counts s1 s3.
Proof. unfold same_counts. intuition congruence. Qed.

Lemma ext_code : forall s s', same_counts s s' -> bstack s' = bstack s -> (exists seg, bare s' = bare s ++ seg) -> ext s s'.
Proof.
  intros s s' [H1 [H2 [H3 [H4 H5]]]] Hb Hc. constructor; auto; try congruence.
  - rewrite H3. auto.
  - unfold base. rewrite H1, H2. auto.
Qed.

Lemma append_op_spec : forall op s, same_counts s (append_op op s) /\ bstack (append_op op s) = bstack s /\
  bare (append_op op s) = bare s /\ bnext (append_op op s) = bnext s.
Proof.
  intros op s. unfold append_op. destruct (active s) as [pc|].
  - destruct (nth_error (instrs s) pc) as [[ops i]|] eqn:E.
    + split; [repeat split|]. split; auto. split; auto. unfold bare. cbn.
      clear - E. revert pc E. induction (instrs s) as [|x l IH]; intros [|pc] E; cbn in *; try discriminate.
      * injection E as ->. reflexivity.
      * rewrite (IH _ E). reflexivity.
    + repeat split.
  - repeat split.
Qed.

Lemma append_instr_spec : forall i s, same_counts s (append_instr i s) /\ bstack (append_instr i s) = bstack s /\
  bare (append_instr i s) = bare s ++ [i] /\ bnext (append_instr i s) = bnext s.
Proof.
  intros i s. unfold append_instr. destruct (append_op_spec (OSample 1) s) as [H1 [H2 [H3 H4]]].
  set (s1 := append_op (OSample 1) s) in *.
  assert (G : forall p a ops, same_counts s (with_code (instrs s1 ++ [(ops, i)]) p a s1) /\
     bare (with_code (instrs s1 ++ [(ops, i)]) p a s1) = bare s ++ [i]).
  { intros p a ops. split; [exact H1|]. unfold bare in *. cbn. rewrite map_app. cbn. rewrite H3. reflexivity. }
  destruct (pending s1); (split; [apply G|split; [exact H2|split; [apply G|exact H4]]]).
Qed.

Lemma append_instr_ext : forall i s, ext s (append_instr i s).
Proof.
  intros i s. destruct (append_instr_spec i s) as [H1 [H2 [H3 H4]]]. apply ext_code; auto. rewrite H3. eauto.
Qed.

Lemma append_instr_cnt : forall i s v, cnt (append_instr i s) v = cnt s v.
Proof. intros. apply same_counts_cnt. apply append_instr_spec. Qed.

Lemma compile_exit_spec : forall exit v s, same_counts s (compile_exit exit v s) /\ ext s (compile_exit exit v s) /\
  bnext (compile_exit exit v s) = bnext s.
Proof.
  intros exit v s. unfold compile_exit. destruct exit; [destruct v|].
  - destruct (append_instr_spec (IReturn v) s) as [H1 [H2 [H3 H4]]]. split; auto. split; auto. apply append_instr_ext.
  - split; [repeat split|]. split; [apply ext_refl|reflexivity].
  - split; [repeat split|]. split; [apply ext_refl|reflexivity].
Qed.

Lemma bare_patch : forall pc i s, bare (patch pc i s) = if pc <? length (bare s) then set_nth pc i (bare s) else bare s.
Proof.
  intros pc i s. unfold patch, bare. rewrite map_length.
  destruct (nth_error (instrs s) pc) as [[ops j]|] eqn:E.
  - assert (L : pc < length (instrs s)) by (apply nth_error_Some; congruence).
    replace (pc <? length (instrs s)) with true by (symmetry; apply Nat.ltb_lt; auto). cbn.
    clear. revert pc. induction (instrs s) as [|x l IH]; intros [|pc]; cbn; auto. rewrite IH. reflexivity.
  - apply nth_error_None in E. replace (pc <? length (instrs s)) with false by (symmetry; apply Nat.ltb_ge; auto). reflexivity.
Qed.

Lemma patch_counts : forall pc i s, same_counts s (patch pc i s) /\ bstack (patch pc i s) = bstack s /\
  bnext (patch pc i s) = bnext s /\ length (bare (patch pc i s)) = length (bare s).
Proof.
  intros pc i s. split; [|split; [|split]].
  - unfold patch. destruct (nth_error (instrs s) pc) as [[ops j]|]; repeat split.
  - unfold patch. destruct (nth_error (instrs s) pc) as [[ops j]|]; repeat split.
  - unfold patch. destruct (nth_error (instrs s) pc) as [[ops j]|]; repeat split.
  - rewrite bare_patch. destruct (pc <? length (bare s)); auto. apply set_nth_length.
Qed.

(** Patching behind [s0]. *)
Lemma patch_ext : forall s0 pc i s, ext s0 s -> length (bare s0) <= pc -> ext s0 (patch pc i s).
Proof.
  intros s0 pc i s [] L. destruct (patch_counts pc i s) as [[H1 [H2 [H3 [H4 H5]]]] [H6 _]].
  constructor; try congruence.
  - intros Hb. specialize (e_base0 Hb). unfold base in *. rewrite H1, H2. auto.
  - destruct e_code0 as [seg E]. rewrite bare_patch. destruct (pc <? length (bare s)) eqn:Ep; [|eauto].
    exists (set_nth (pc - length (bare s0)) i seg). rewrite E.
    clear - L. revert pc L. induction (bare s0) as [|x l IH]; intros pc L; cbn in *.
    + rewrite Nat.sub_0_r. reflexivity.
    + destruct pc; [lia|]. cbn. rewrite IH by lia. reflexivity.
Qed.

Lemma new_basic_block_spec : forall s, same_counts s (new_basic_block s) /\ ext s (new_basic_block s) /\ bare (new_basic_block s) = bare s.
Proof.
  intros s. split; [repeat split|]. split; [|reflexivity]. apply ext_code; [repeat split|reflexivity|]. exists []. rewrite app_nil_r. reflexivity.
Qed.

Lemma bare_length : forall s, length (bare s) = length (instrs s).
Proof. intros. unfold bare. apply map_length. Qed.

(** Entering a block, compiling in it, and leaving it. *)
Lemma enter_block_spec : forall b s, exists id, same_counts s (enter_block b s) /\ bstack (enter_block b s) = id :: bstack s /\
  bare (enter_block b s) = bare s.
Proof.
  intros b s. unfold enter_block. cbn.
  set (s1 := with_blocks (bnext s :: bstack s) (S (bnext s)) s).
  destruct (append_op_spec ((if b then OReplace else OEnter) (bnext s - block s)) s1) as [H1 [H2 [H3 H4]]].
  exists (bnext s). split; [exact H1|]. split; [exact H2|exact H3].
Qed.

Lemma exit_block_spec : forall b s id r, bstack s = id :: r -> exists s', exit_block b s = Some s' /\
  same_counts s s' /\ bstack s' = r /\ bare s' = bare s /\ length (slots s') = length (slots s).
Proof.
  intros b s id r H. unfold exit_block. rewrite H. destruct b.
  - eexists. split; [reflexivity|]. repeat split.
  - eexists. split; [reflexivity|].
    destruct (append_op_spec OExit (with_blocks r (bnext s) s)) as [H1 [H2 [H3 H4]]].
    split; [exact H1|]. split; [exact H2|]. split; [exact H3|]. destruct H1 as [_ [_ [E _]]]. rewrite E. reflexivity.
Qed.

Lemma ext_enter : forall b s s', ext (enter_block b s) s' ->
  (forall v, cnt (enter_block b s) v = cnt s v) /\ (inv s -> inv (enter_block b s)) /\
  (exists id, bstack s' = id :: bstack s) /\
  (forall s'', same_counts s' s'' -> bstack s'' = bstack s -> bare s'' = bare s' -> ext s s'').
Proof.
  intros b s s' E. destruct (enter_block_spec b s) as [id [H1 [H2 H3]]].
  split; [intros v; apply same_counts_cnt; auto|]. 
  destruct H1 as [A1 [A2 [A3 [A4 A5]]]].
  split; [|split].
  - unfold inv, base, inrange, cnt. rewrite A1, A2, A3, A4. auto.
  - exists id. rewrite (e_bstack _ _ E). auto.
  - intros s'' [B1 [B2 [B3 [B4 B5]]]] Hb Hc. destruct E. constructor; try congruence.

    + intros Hs. unfold base in *. rewrite B1, B2. apply e_base0. rewrite A1, A2. auto.
    + rewrite Hc. rewrite <- H3. auto.
Qed.

(** ** Rewriting variables when functions are merged *)
Section tc_ind.
  Variable P : tc -> Prop.
  Hypothesis H_type : P TType.
  Hypothesis H_var : forall v, P (TVar v).
  Hypothesis H_let : forall r bs b, Forall P bs -> P b -> P (TLet r bs b).
  Hypothesis H_struct : forall fs, Forall P fs -> P (TStruct fs).
  Let oP (o : option tc) : Prop := match o with Some e => P e | None => True end.
  Hypothesis H_copy : forall src fs, P src -> Forall oP fs -> P (TCopy src fs).
  Hypothesis H_union : forall t a, P a -> P (TUnion t a).
  Hypothesis H_select : forall c nt ts d, P c -> Forall (fun p => P (snd p)) ts -> P d -> P (TSelect c nt ts d).
  Hypothesis H_access : forall k o t, P o -> P (TAccess k o t).
  Hypothesis H_func : forall scope b, P b -> P (TFunc scope b).
  Hypothesis H_apply : forall f a, P f -> P a -> P (TApply f a).
  Hypothesis H_list : forall fs, Forall P fs -> P (TList fs).
  Hypothesis H_literal : forall l, P (TLiteral l).

  Fixpoint tc_ind' (e : tc) : P e :=
    match e with
    | TType => H_type
    | TVar v => H_var v
    | TLet r bs b =>
      H_let r bs b ((fix go l : Forall P l := match l with [] => Forall_nil _ | x :: l => Forall_cons _ (tc_ind' x) (go l) end) bs) (tc_ind' b)
    | TStruct fs =>
      H_struct fs ((fix go l : Forall P l := match l with [] => Forall_nil _ | x :: l => Forall_cons _ (tc_ind' x) (go l) end) fs)
    | TCopy src fs =>
      H_copy src fs (tc_ind' src)
        ((fix go l : Forall oP l :=
            match l with
            | [] => Forall_nil _
            | x :: l => Forall_cons (P := oP) x (match x return oP x with Some e => tc_ind' e | None => I end) (go l)
            end) fs)
    | TUnion t a => H_union t a (tc_ind' a)
    | TSelect c n ts d =>
      H_select c n ts d (tc_ind' c)
        ((fix go l : Forall (fun p => P (snd p)) l :=
            match l with [] => Forall_nil _ | x :: l => Forall_cons (P := fun p => P (snd p)) x (tc_ind' (snd x)) (go l) end) ts)
        (tc_ind' d)
    | TAccess k o t => H_access k o t (tc_ind' o)
    | TFunc scope b => H_func scope b (tc_ind' b)
    | TApply f a => H_apply f a (tc_ind' f) (tc_ind' a)
    | TList fs =>
      H_list fs ((fix go l : Forall P l := match l with [] => Forall_nil _ | x :: l => Forall_cons _ (tc_ind' x) (go l) end) fs)
    | TLiteral l => H_literal l
    end.
End tc_ind.

Definition frame_var (ns na : nat) (v : var) : Prop := wf_var ns na [] v = true.

Lemma frame_var_env : forall ns na env v, frame_var ns na v -> wf_var ns na env v = true.
Proof. intros ns na env [i|i|i] H; cbn in *; auto. destruct i; discriminate. Qed.

Lemma rewrite_var_wf : forall statics off ns na na' env v,
  wf_var (length statics) na env v = true -> Forall (frame_var ns na') statics -> na + off <= na' ->
  wf_var ns na' env (rewrite_var statics off v) = true.
Proof.
  intros statics off ns na na' env v W F L. destruct v as [i|i|i]; cbn in *; auto.
  - apply Nat.ltb_lt in W. apply frame_var_env. rewrite Forall_forall in F. apply F. apply nth_In. auto.
  - apply Nat.ltb_lt in W. apply Nat.ltb_lt. lia.
Qed.

Lemma forallb_map_impl : forall {A} (p q : A -> bool) f l, Forall (fun x => p x = true -> q (f x) = true) l ->
  forallb p l = true -> forallb q (map f l) = true.
Proof.
  induction 1; cbn; auto. intros H1. apply andb_true_iff in H1. destruct H1. rewrite H, IHForall; auto.
Qed.

Lemma rewrite_wf : forall e statics off ns na na' env,
  Forall (frame_var ns na') statics -> na + off <= na' ->
  wf (length statics) na env e = true -> wf ns na' env (rewrite_vars statics off e) = true.
Proof.
  induction e using tc_ind'; intros statics off ns na na' env F L W; cbn in *; auto;
    rewrite ?map_length.
  - eapply rewrite_var_wf; eauto.
  - apply andb_true_iff in W. destruct W as [W1 W2]. rewrite (IHe statics off ns na) by auto. rewrite andb_true_r.
    eapply forallb_map_impl; [|exact W1]. eapply Forall_impl; [|exact H]. cbn. intros e' He W'. eapply He; eauto.
  - eapply forallb_map_impl; [|exact W]. eapply Forall_impl; [|exact H]. cbn. intros e' He W'. eapply He; eauto.
  - apply andb_true_iff in W. destruct W as [W1 W2]. rewrite (IHe statics off ns na) by auto. cbn.
    eapply forallb_map_impl; [|exact W2]. eapply Forall_impl; [|exact H]. cbn. intros [e'|] He W'; cbn; auto. eapply He; eauto.
  - eapply IHe; eauto.
  - repeat (apply andb_true_iff in W; destruct W as [W ?]).
    rewrite (IHe1 statics off ns na), (IHe2 statics off ns na) by auto. rewrite map_map.
    change (map (fun x => fst (fst x, rewrite_vars statics off (snd x))) ts) with (map fst ts). rewrite H0, H1, H2. cbn. rewrite !andb_true_r.
    eapply forallb_map_impl; [|exact H4]. eapply Forall_impl; [|exact H]. cbn. intros p He W'. eapply He; eauto.
  - eapply IHe; eauto.
  - apply andb_true_iff in W. destruct W as [W1 W2]. rewrite W2, andb_true_r.
    eapply forallb_map_impl; [|exact W1]. apply Forall_forall. intros v _ W'. eapply rewrite_var_wf; eauto.
  - apply andb_true_iff in W. destruct W as [W1 W2]. erewrite IHe1, IHe2 by eauto. reflexivity.
  - eapply forallb_map_impl; [|exact W]. eapply Forall_impl; [|exact H]. cbn. intros e' He W'. eapply He; eauto.
Qed.

Lemma fold_size_map : forall {A} (g : A -> nat) (f : A -> A) l, Forall (fun e => g (f e) = g e) l ->
  fold_right (fun e n => g e + n) 0 (map f l) = fold_right (fun e n => g e + n) 0 l.
Proof. induction 1; cbn; congruence. Qed.

Lemma rewrite_size : forall e statics off, size (rewrite_vars statics off e) = size e.
Proof.
  induction e using tc_ind'; intros statics off; cbn; auto;
    try (rewrite (fold_size_map size) by (eapply Forall_impl; [|exact H]; cbn; auto)); auto.
  - rewrite IHe.
    rewrite (fold_size_map (fun e : option tc => match e with Some e => size e | None => 0 end)); auto.
    eapply Forall_impl; [|exact H]. intros [e'|] He; cbn; auto.
  - rewrite IHe1, IHe2. rewrite (fold_size_map (fun p : nat * tc => size (snd p))); auto.
    eapply Forall_impl; [|exact H]. cbn. auto.
Qed.

Lemma merge_loop_spec : forall body ns statics off nargs st' off' nargs' b,
  merge_loop statics off nargs body = (st', off', nargs', b) ->
  Forall (frame_var ns nargs) statics -> nargs = S off ->
  wf (length statics) 1 [] body = true ->
  Forall (frame_var ns nargs') st' /\ nargs' = S off' /\ wf (length st') 1 [] b = true /\ size b <= size body.
Proof.
  induction body using tc_ind'; intros ns statics off nargs st' off' nargs' b0 M F E W;
    try (cbn in M; injection M as <- <- <- <-; auto; fail).
  cbn in M, W. apply andb_true_iff in W. destruct W as [W1 W2].
  specialize (IHbody ns _ _ _ _ _ _ _ M).
  destruct IHbody as [A1 [A2 [A3 A4]]].
  - apply Forall_map. rewrite forallb_forall in W1. apply Forall_forall. intros v Hv.
    eapply rewrite_var_wf; eauto; try lia.
    eapply Forall_impl; [|exact F]. intros w Hw. destruct w as [i|i|i]; cbn in *; auto.
    unfold frame_var in *. cbn in *. apply Nat.ltb_lt. apply Nat.ltb_lt in Hw. lia.
  - lia.
  - rewrite map_length. auto.
  - split; auto. split; auto. split; auto. cbn. lia.
Qed.

Lemma merge_func_spec : forall scope body nargs b, merge_func scope body = (nargs, b) ->
  wf (length scope) 1 [] body = true ->
  wf (length scope) nargs [] b = true /\ size b <= size body /\ 1 <= nargs.
Proof.
  intros scope body nargs b M W. unfold merge_func in M.
  destruct (merge_loop (map Static (seq 0 (length scope))) 0 1 body) as [[[st' off'] na'] b'] eqn:E.
  injection M as <- <-.
  apply (merge_loop_spec body (length scope)) in E; auto.
  - destruct E as [A1 [A2 [A3 A4]]]. split; [|split; [rewrite rewrite_size; auto|lia]].
    eapply rewrite_wf; eauto. lia.
  - apply Forall_map. apply Forall_forall. intros i Hi. apply in_seq in Hi. cbn. unfold frame_var. cbn. apply Nat.ltb_lt. lia.
  - rewrite map_length, seq_length. auto.
Qed.

(** ** Applications *)
Definition sizes (l : list tc) : nat := fold_right (fun e n => size e + n) 0 l.

Lemma spine_spec : forall e acc f args, spine e acc = (f, args) ->
  (forall f' a, f <> TApply f' a) /\ size f + sizes args <= size e + sizes acc /\
  (forall f' a, e = TApply f' a -> size f + sizes args < size e + sizes acc) /\
  (forall ns na env, wf ns na env e = true -> forallb (wf ns na env) acc = true ->
     wf ns na env f = true /\ forallb (wf ns na env) args = true) /\
  length acc <= length args.
Proof.
  induction e using tc_ind'; intros acc f0 args Sp; cbn in Sp;
    try (injection Sp as <- <-; split; [discriminate|split; [lia|split; [discriminate|split; auto]]]; fail).
  destruct (IHe1 _ _ _ Sp) as [A1 [A2 [A3 [A4 A5]]]]. split; auto. cbn in *. fold (sizes acc) in *.
  split; [lia|]. split; [intros; lia|]. split; [|lia].
  intros ns na env W Wa. apply andb_true_iff in W. destruct W as [W1 W2]. apply A4; auto. cbn. rewrite W2, Wa. reflexivity.
Qed.
