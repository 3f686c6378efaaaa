(** * What the code generator relies on holds of all compiled code: jumps go forward to
    instructions with profile operations, selects are sorted, and the functions of a module
    have different profile blocks. *)
From Coq Require Import List Arith Lia Bool.
From Verif Require Import FuncModel CodeModel CodeProps CompileModel CompileEval CompileStatic CompileProfile PathModel LinkModel GenModel.
Import ListNotations.

(** ** The statement *)

(** Code the generator accepts, with all functions it makes: jumps go forward to instructions
    that have profile operations, the targets of selects are sorted by tag and below the number
    of tags, functions get
    all their statics. *)
Definition flat_ok (c : code) : Prop :=
  forall pc ops i, nth_error (code_instrs c) pc = Some (ops, i) ->
    (forall t, In t (jumps i) -> pc < t /\ exists ops' i', nth_error (code_instrs c) t = Some (ops', i') /\ ops' <> []) /\
    (forall cond n ts d, i = ISelect cond n ts d -> sorted_targets ts /\ forall t, In t ts -> fst t < n) /\
    (forall d off c' scope, i = IFunc d off c' scope -> code_num_statics c' = length scope).
Inductive gen_ok : code -> Prop :=
| GenOk : forall c, flat_ok c ->
    (forall ops d off c' scope, In (ops, IFunc d off c' scope) (code_instrs c) -> gen_ok c') ->
    gen_ok c.

(** ** The invariant *)
Definition ids (i : instr) : list nat := match i with IFunc _ _ c _ => map code_block (collect c) | _ => [] end.

Lemma collect_ids : forall na ns nl b l, map code_block (collect (Code na ns nl b l)) = b :: flat_map ids (map snd l).
Proof.
  intros na ns nl b l. cbn [collect map code_block]. f_equal. induction l as [|[ops i] l IH]; [reflexivity|].
  cbn [map flat_map snd]. rewrite map_app, IH. destruct i; reflexivity.
Qed.

(** An instruction at [t] has profile operations, or will have if there is none yet. *)
Definition lands (s : cs) (t : nat) : Prop :=
  (exists ops i, nth_error (instrs s) t = Some (ops, i) /\ ops <> []) \/
  (t = length (instrs s) /\ (active s = None \/ pending s <> [])).
Definition grow (s s' : cs) : Prop := forall t, lands s t -> lands s' t.

Definition good_at (s : cs) (pc : nat) (i : instr) : Prop :=
  (forall t, In t (jumps i) -> pc < t /\ lands s t) /\
  match i with
  | ISelect _ n ts _ => sorted_targets ts /\ forall t, In t ts -> fst t < n
  | IFunc _ _ c' scope => code_num_statics c' = length scope /\ gen_ok c'
  | _ => True
  end.

(** The compiler went from [s] to [s']; the instructions [H] are still to be completed. *)
Record PH (H : list nat) (s s' : cs) : Prop := {
  ph_block : block s' = block s;
  ph_bnext : bnext s <= bnext s';
  ph_grow : grow s s';
  ph_seg : exists seg, bare s' = bare s ++ seg /\
    (forall j i, nth_error seg j = Some i -> ~ In (length (bare s) + j) H -> good_at s' (length (bare s) + j) i) /\
    (forall j i t, nth_error seg j = Some i -> In t (jumps i) -> t <= length (bare s')) /\
    NoDup (flat_map ids seg) /\ Forall (fun b => bnext s <= b < bnext s') (flat_map ids seg) }.

Definition tight (s s' : cs) : Prop :=
  length (bare s) < length (bare s') /\
  forall pc i t, length (bare s) <= pc -> nth_error (bare s') pc = Some i -> In t (jumps i) -> t < length (bare s').

Lemma good_at_grow : forall s s' pc i, grow s s' -> good_at s pc i -> good_at s' pc i.
Proof. intros s s' pc i G [A B]. split; auto. intros t I. destruct (A t I). auto. Qed.

Lemma lands_len : forall s t, lands s t -> t <= length (bare s).
Proof.
  intros s t [[ops [i [E _]]]|[-> _]]; rewrite bare_length; [|lia]. assert (nth_error (instrs s) t <> None) by congruence. apply nth_error_Some in H. lia.
Qed.

Lemma NoDup_app : forall {A} (l l' : list A), NoDup l -> NoDup l' -> (forall x, In x l -> ~ In x l') -> NoDup (l ++ l').
Proof.
  induction l as [|x l IH]; intros l' N N' D; cbn; auto. inversion N; subst. constructor.
  - intros I. apply in_app_or in I. destruct I as [I|I]; auto. apply (D x); auto. left. auto.
  - apply IH; auto. intros y Iy. apply D. right. auto.
Qed.

Lemma PH_refl : forall H s, PH H s s.
Proof.
  intros H s. constructor; auto; [intros t L; exact L|]. exists []. rewrite app_nil_r. split; auto. split; [intros [|j] i E; discriminate|].
  split; [intros [|j] i t E; discriminate|]. split; constructor.
Qed.

Lemma PH_trans : forall H H1 H2 s s1 s2, PH H1 s s1 -> PH H2 s1 s2 -> (forall x, In x H1 -> In x H) -> (forall x, In x H2 -> In x H) -> PH H s s2.
Proof.
  intros H H1 H2 s s1 s2 [B1 N1 G1 [g1 [E1 [A1 [L1 [D1 F1]]]]]] [B2 N2 G2 [g2 [E2 [A2 [L2 [D2 F2]]]]]] S1 S2.
  constructor; [congruence|lia|intros t L; apply G2, G1, L|].
  exists (g1 ++ g2). split; [rewrite E2, E1, app_assoc; reflexivity|].
  assert (Len : length (bare s1) = length (bare s) + length g1) by (rewrite E1, app_length; auto).
  split; [|split; [|split]].
  - intros j i E N. destruct (Nat.lt_ge_cases j (length g1)) as [Lt|Ge].
    + rewrite nth_error_app1 in E by auto. apply (good_at_grow s1); auto.
    + rewrite nth_error_app2 in E by auto. replace (length (bare s) + j) with (length (bare s1) + (j - length g1)) in * by lia. auto.
  - intros j i t E I. destruct (Nat.lt_ge_cases j (length g1)) as [Lt|Ge].
    + rewrite nth_error_app1 in E by auto. specialize (L1 j i t E I). rewrite E2, app_length. lia.
    + rewrite nth_error_app2 in E by auto. eauto.
  - rewrite flat_map_app. apply NoDup_app; auto. intros x I1 I2. rewrite Forall_forall in F1, F2. specialize (F1 x I1). specialize (F2 x I2). lia.
  - rewrite flat_map_app. apply Forall_app. split; eapply Forall_impl; eauto; cbn; intros; lia.
Qed.
Lemma PH_trans0 : forall s s1 s2, PH [] s s1 -> PH [] s1 s2 -> PH [] s s2.
Proof. intros s s1 s2 A B. eapply PH_trans; eauto. Qed.

Lemma PH_len : forall H s s', PH H s s' -> length (bare s) <= length (bare s').
Proof. intros H s s' [_ _ _ [seg [E _]]]. rewrite E, app_length. lia. Qed.

Lemma tight_after : forall H s s1 s2, PH H s s1 -> tight s1 s2 -> (exists seg, bare s2 = bare s1 ++ seg) -> tight s s2.
Proof.
  intros H s s1 s2 P [T1 T2] [g2 E2]. pose proof (PH_len _ _ _ P) as Ln. split; [lia|].
  destruct P as [_ _ _ [g1 [E1 [_ [L1 _]]]]].
  intros pc i t Lo E I. destruct (Nat.lt_ge_cases pc (length (bare s1))) as [Lt|Ge]; [|eapply T2; eauto].
  rewrite E2, nth_error_app1 in E by auto. rewrite E1, nth_error_app2 in E by auto. specialize (L1 _ _ _ E I). lia.
Qed.

Lemma PH_bare : forall H s s', PH H s s' -> exists seg, bare s' = bare s ++ seg.
Proof. intros H s s' [_ _ _ [seg [E _]]]. eauto. Qed.

Lemma same_PH : forall s s', same_code s s' -> PH [] s s'.
Proof.
  intros s s' (I & P & A & B & N). constructor; auto; [lia| |].
  - intros t L. unfold lands in *. rewrite I, A, P. exact L.
  - unfold bare. rewrite I. exists []. rewrite app_nil_r. split; auto. split; [intros [|j] i E; discriminate|].
    split; [intros [|j] i t E; discriminate|]. split; constructor.
Qed.
Lemma same_tight : forall s s1 s2, tight s s1 -> same_code s1 s2 -> tight s s2.
Proof. intros s s1 s2 [T1 T2] (I & _). unfold tight, bare in *. rewrite I. auto. Qed.
Lemma same_tight_l : forall s s1 s2, same_code s s1 -> tight s1 s2 -> tight s s2.
Proof. intros s s1 s2 (I & _) [T1 T2]. unfold tight, bare in *. rewrite I in *. auto. Qed.

(** ** Operations and instructions *)
Lemma set_snd : forall pc ops i (l : list (list prof_op * instr)) ops', nth_error l pc = Some (ops, i) ->
  map snd (set_nth pc (ops', i) l) = map snd l.
Proof.
  induction pc as [|pc IH]; intros ops i l ops' E; destruct l as [|x l]; try discriminate; cbn in *; [injection E as ->; reflexivity|]. erewrite IH; eauto.
Qed.

Lemma append_op_grow : forall op s, grow s (append_op op s) /\ bare (append_op op s) = bare s /\ length (instrs (append_op op s)) = length (instrs s).
Proof.
  intros op s. unfold append_op. destruct (active s) as [pc|] eqn:A.
  - destruct (nth_error (instrs s) pc) as [[ops i]|] eqn:E; [|split; [intros t L; exact L|auto]].
    split; [|split; [unfold bare; cbn [instrs with_code]; eapply set_snd; eauto|cbn [instrs with_code]; apply set_nth_length]].
    intros t [[ops' [i' [E' N]]]|[-> L]]; [left|right; cbn [instrs with_code pending active]; rewrite set_nth_length; split; auto; destruct L as [L|L]; [congruence|auto]].
    cbn [instrs with_code]. rewrite nth_set by (apply nth_error_Some; congruence). destruct (t =? pc) eqn:Q; [|eauto].
    exists (add_op op ops), i. split; auto. apply add_op_nonempty.
  - split; [|split; auto]. intros t [L|[-> L]]; [left; exact L|right]. cbn. split; auto.
Qed.

Lemma append_instr_grow : forall i s, grow s (append_instr i s) /\ bare (append_instr i s) = bare s ++ [i].
Proof.
  intros i s. rewrite append_instr_push. destruct (append_op_grow (OSample 1) s) as [G [B L]].
  assert (F : active s = None \/ pending s <> [] -> pending (append_op (OSample 1) s) <> []).
  { unfold append_op. intros [A|P].
    - rewrite A. cbn. apply add_op_nonempty.
    - destruct (active s) as [pc|]; [|cbn; apply add_op_nonempty]. destruct (nth_error (instrs s) pc) as [[ops j]|]; exact P. }
  unfold push_instr. destruct (pending (append_op (OSample 1) s)) as [|o ops] eqn:P.
  - split; [|unfold bare in *; cbn [instrs with_code]; rewrite map_app, B; reflexivity].
    intros t Lt. destruct (G t Lt) as [[ops' [i' [E N]]]|[-> Q]].
    + left. cbn [instrs with_code]. exists ops', i'. split; auto. rewrite nth_error_app1; auto. apply nth_error_Some. congruence.
    + exfalso. destruct Lt as [[ops' [i' [E N]]]|[_ Q']]; [|exact (F Q' eq_refl)].
      rewrite L in E. assert (X : nth_error (instrs s) (length (instrs s)) <> None) by congruence. apply nth_error_Some in X. lia.
  - split; [|unfold bare in *; cbn [instrs with_code]; rewrite map_app, B; reflexivity].
    intros t Lt. left. cbn [instrs with_code]. destruct (G t Lt) as [[ops' [i' [E N]]]|[-> Q]].
    + exists ops', i'. split; auto. rewrite nth_error_app1; auto. apply nth_error_Some. congruence.
    + exists (o :: ops), i. split; [|discriminate]. rewrite nth_error_app2, Nat.sub_diag by lia. reflexivity.
Qed.

Lemma append_op_PH : forall op s, PH [] s (append_op op s).
Proof.
  intros op s. destruct (append_op_grow op s) as [G [B _]]. destruct (append_op_same op s) as [B1 [B2 _]]. constructor; auto; [lia|].
  exists []. rewrite app_nil_r. split; auto. split; [intros [|j] i E; discriminate|]. split; [intros [|j] i t E; discriminate|]. split; constructor.
Qed.

Lemma append_instr_same : forall i s, block (append_instr i s) = block s /\ bnext (append_instr i s) = bnext s.
Proof.
  intros i s. rewrite append_instr_push. destruct (append_op_same (OSample 1) s) as [B1 [B2 _]]. unfold push_instr.
  destruct (pending (append_op (OSample 1) s)); cbn; auto.
Qed.

(** Appending an instruction that does not jump, after allocating profile blocks for it. *)
Lemma append_PH : forall i s s1, jumps i = [] ->
  match i with IFunc _ _ c scope => code_num_statics c = length scope /\ gen_ok c | _ => True end ->
  instrs s1 = instrs s -> pending s1 = pending s -> active s1 = active s -> block s1 = block s -> bnext s <= bnext s1 ->
  NoDup (ids i) -> Forall (fun b => bnext s <= b < bnext s1) (ids i) -> PH [] s (append_instr i s1).
Proof.
  intros i s s1 J G I P A B N Nd F. destruct (append_instr_grow i s1) as [Gr Br]. destruct (append_instr_same i s1) as [B1 B2].
  assert (Ba : bare s1 = bare s) by (unfold bare; rewrite I; auto).
  constructor; [congruence|lia| |].
  - intros t L. apply Gr. unfold lands in *. rewrite I, P, A. exact L.
  - exists [i]. rewrite Br, Ba. split; auto. split; [|split; [|split]].
    + intros [|[|j]] x E _; try discriminate. injection E as <-. split; [rewrite J; intros t []|]. destruct i; auto. exfalso. cbn in J. destruct (map snd targets); discriminate.
    + intros [|[|j]] x t E It; try discriminate. injection E as <-. rewrite J in It. destruct It.
    + cbn. rewrite app_nil_r. auto.
    + cbn. rewrite app_nil_r, B2. auto.
Qed.

Lemma append_plain_PH : forall i s, jumps i = [] -> ids i = [] -> match i with IFunc _ _ _ _ => False | _ => True end -> PH [] s (append_instr i s).
Proof.
  intros i s J I N. apply append_PH; auto; try (rewrite I; constructor). destruct i; auto; contradiction.
Qed.

Lemma append_tight : forall i s, jumps i = [] -> tight s (append_instr i s).
Proof.
  intros i s J. destruct (append_instr_grow i s) as [_ B]. split; rewrite B; [rewrite app_length; cbn; lia|].
  intros pc x t L E I. assert (pc = length (bare s)).
  { assert (X : nth_error (bare s ++ [i]) pc <> None) by congruence. apply nth_error_Some in X. rewrite app_length in X. cbn in X. lia. }
  subst pc. rewrite nth_error_app2, Nat.sub_diag in E by lia. injection E as <-. rewrite J in I. destruct I.
Qed.

Lemma exit_PH : forall exit v s, PH [] s (compile_exit exit (Some v) s) /\ (exit = true -> tight s (compile_exit exit (Some v) s)).
Proof.
  intros [|] v s; cbn [compile_exit]; split; try discriminate; [apply append_plain_PH; cbn; auto|intros _; apply append_tight; reflexivity|apply PH_refl].
Qed.

Lemma finish_PH : forall exit s0 s s1 s3 v i, PH [] s0 s -> same_code s s1 -> jumps i = [] -> match i with IFunc _ _ _ _ => False | _ => True end ->
  same_code (compile_exit exit (Some v) (append_instr i s1)) s3 ->
  PH [] s0 s3 /\ (exit = true -> tight s0 s3).
Proof.
  intros exit s0 s s1 s3 v i P Sm J NF Sm3.
  assert (Ii : ids i = []) by (destruct i; auto; contradiction).
  destruct (exit_PH exit v (append_instr i s1)) as [Pe Te].
  pose proof (append_plain_PH i s1 J Ii NF) as Pa.
  pose proof (PH_trans0 _ _ _ P (same_PH _ _ Sm)) as P1. pose proof (PH_trans0 _ _ _ P1 Pa) as P2. pose proof (PH_trans0 _ _ _ P2 Pe) as P3.
  split; [eapply PH_trans0; [exact P3|apply same_PH; auto]|].
  intros Ex. eapply same_tight; [|exact Sm3]. eapply tight_after; [exact P2|auto|eapply PH_bare; eauto].
Qed.

Lemma enter_PH : forall b s, PH [] s (enter_block b s) /\ lands (enter_block b (new_basic_block s)) (length (bare s)).
Proof.
  intros b s. unfold enter_block, push_block. cbn [fst snd]. split.
  - eapply PH_trans0; [|apply append_op_PH]. constructor; cbn; auto; [intros t L; exact L|].
    exists []. rewrite app_nil_r. split; auto. split; [intros [|j] i E; discriminate|]. split; [intros [|j] i t E; discriminate|]. split; constructor.
  - apply append_op_grow. right. cbn. rewrite <- bare_length. auto.
Qed.

Lemma exit_block_PH : forall b s s', exit_block b s = Some s' -> PH [] s s'.
Proof.
  intros b s s' E. unfold exit_block in E. destruct (bstack s) as [|x r]; [discriminate|]. injection E as <-.
  assert (Q : PH [] s (with_blocks r (bnext s) s)) by (apply same_PH; repeat split).
  destruct b; auto. eapply PH_trans0; [exact Q|apply append_op_PH].
Qed.

Lemma basic_PH : forall s, PH [] s (new_basic_block s) /\ lands (new_basic_block s) (length (bare s)).
Proof.
  intros s. split.
  - constructor; cbn; auto.
    + intros t [L|[-> L]]; [left; exact L|right; split; auto].
    + exists []. rewrite app_nil_r. split; auto. split; [intros [|j] i E; discriminate|]. split; [intros [|j] i t E; discriminate|]. split; constructor.
  - right. cbn. rewrite <- bare_length. auto.
Qed.

(** ** The parts of the compiler *)
Definition W (e : tc) : Prop := exists ns na env, wf ns na env e = true.

Definition comp_gen (comp : bool -> tc -> cs -> option (option var * cs)) : Prop :=
  forall exit e s r s', W e -> comp exit e s = Some (r, s') -> PH [] s s' /\ (exit = true -> tight s s').

Lemma compile_list_PH : forall comp, comp_gen comp -> forall es s vs s', Forall W es -> compile_list comp es s = Some (vs, s') -> PH [] s s'.
Proof.
  intros comp C. induction es as [|e es IH]; intros s vs s' F E; cbn [compile_list] in E; [injection E as <- <-; apply PH_refl|].
  inversion F; subst. destruct (comp false e s) as [[[v|] s1]|] eqn:E1; try discriminate. destruct (compile_list comp es s1) as [[vs' s2]|] eqn:E2; [|discriminate].
  injection E as <- <-. eapply PH_trans0; [eapply C; eauto|eauto].
Qed.

Lemma compile_fields_PH : forall comp, comp_gen comp -> forall src es i s vs s', Forall (fun o => match o with Some e => W e | None => True end) es ->
  compile_fields comp src i es s = Some (vs, s') -> PH [] s s'.
Proof.
  intros comp C src. induction es as [|[e|] es IH]; intros i s vs s' F E; cbn [compile_fields] in E; [injection E as <- <-; apply PH_refl| |]; inversion F; subst.
  - destruct (comp false e s) as [[[v|] s1]|] eqn:E1; try discriminate. destruct (compile_fields comp src (S i) es s1) as [[vs' s2]|] eqn:E2; [|discriminate].
    injection E as <- <-. eapply PH_trans0; [eapply C; eauto|eauto].
  - destruct (new_local s) as [d s1] eqn:N. destruct (compile_fields comp src (S i) es (append_instr (IAccess true src i d) s1)) as [[vs' s2]|] eqn:E2; [|discriminate].
    injection E as <- <-. eapply PH_trans0; [apply same_PH; eapply new_local_same; eauto|]. eapply PH_trans0; [|eauto]. apply append_plain_PH; cbn; auto.
Qed.

Lemma let_vars_PH : forall rec n s ds s', let_vars rec n s = (ds, s') -> PH [] s s'.
Proof.
  intros rec. induction n as [|n IH]; intros s ds s' E; cbn [let_vars] in E; [injection E as <- <-; apply PH_refl|]. destruct rec.
  - destruct (new_local s) as [d s1] eqn:N. destruct (let_vars true n (push_var (Some (Local d)) (append_instr (IRef d) s1))) as [ds' s2] eqn:E2. injection E as <- <-.
    eapply PH_trans0; [apply same_PH; eapply new_local_same; eauto|]. eapply PH_trans0; [apply (append_plain_PH (IRef d)); cbn; auto|].
    eapply PH_trans0; [|eauto]. apply same_PH. repeat split.
  - eapply PH_trans0; [|eauto]. apply same_PH. repeat split.
Qed.

Lemma let_defs_PH : forall comp, comp_gen comp -> forall es s vs s', Forall W es -> let_defs comp es s = Some (vs, s') -> PH [] s s'.
Proof.
  intros comp C. induction es as [|e es IH]; intros s vs s' F E; cbn [let_defs] in E; [injection E as <- <-; apply PH_refl|].
  inversion F; subst. destruct (comp false e (enter_block false s)) as [[[v|] s1]|] eqn:E1; try discriminate.
  destruct (exit_block false s1) as [s2|] eqn:E2; [|discriminate]. destruct (let_defs comp es s2) as [[vs' s3]|] eqn:E3; [|discriminate]. injection E as <- <-.
  eapply PH_trans0; [apply enter_PH|]. eapply PH_trans0; [eapply C; eauto|]. eapply PH_trans0; [eapply exit_block_PH; eauto|eauto].
Qed.

Lemma let_sets_PH : forall defs refs i s s', let_sets refs i defs s = Some s' -> PH [] s s'.
Proof.
  induction defs as [|v defs IH]; intros refs i s s' E; cbn [let_sets] in E; [injection E as <-; apply PH_refl|].
  set (s1 := match refs with d :: _ => append_instr (IRefDef d v) s | [] => s end) in *.
  assert (P1 : PH [] s s1) by (subst s1; destruct refs; [apply PH_refl|apply append_plain_PH; cbn; auto]).
  destruct (set_var i v s1) as [s2|] eqn:E2; [|discriminate].
  eapply PH_trans0; [exact P1|]. eapply PH_trans0; [apply same_PH; eapply set_var_same; eauto|eauto].
Qed.

Lemma branch_PH : forall comp, comp_gen comp -> forall exit dest e s pc s', W e -> select_branch comp exit dest e s = Some (pc, s') ->
  PH [] s s' /\ pc = length (bare s) /\ length (bare s) < length (bare s') /\ lands s' pc /\ (exit = true -> tight s s').
Proof.
  intros comp C exit dest e s pc s' We E. unfold select_branch in E. cbv zeta in E.
  destruct (comp exit e (enter_block exit (new_basic_block s))) as [[r s1]|] eqn:E1; [|discriminate].
  destruct (C _ _ _ _ _ We E1) as [P1 T1].
  destruct (basic_PH s) as [Pb _]. destruct (enter_PH exit (new_basic_block s)) as [Pe _]. destruct (enter_PH exit s) as [_ Ld].
  pose proof (PH_trans0 _ _ _ Pb Pe) as P0. pose proof (PH_trans0 _ _ _ P0 P1) as P01.
  pose proof (PH_len _ _ _ P0) as L0. pose proof (PH_len _ _ _ P1) as L1.
  destruct exit.
  - destruct (exit_block true s1) as [s2|] eqn:E2; [|discriminate]. destruct (release r s2) as [s3|] eqn:E3; [|discriminate]. injection E as <- <-.
    assert (Sm : same_code s1 s3) by (eapply same_trans; [eapply exit_block_same; eauto|eapply release_same; eauto]).
    pose proof (PH_trans0 _ _ _ P01 (same_PH _ _ Sm)) as P3.
    assert (T : tight s s3) by (eapply same_tight; [|exact Sm]; eapply tight_after; [exact P0|auto|eapply PH_bare; eauto]).
    split; auto. split; [cbn; rewrite bare_length; reflexivity|]. split; [apply T|]. split; [|auto].
    apply (ph_grow _ _ _ (same_PH _ _ Sm)). apply (ph_grow _ _ _ P1). cbn [instrs new_basic_block with_code]. rewrite <- bare_length. exact Ld.
  - destruct r as [v|]; [|discriminate]. destruct (exit_block false (append_instr (ICopy v dest) s1)) as [s2|] eqn:E2; [|discriminate].
    destruct (release (Some v) s2) as [s3|] eqn:E3; [|discriminate]. injection E as <- <-.
    pose proof (append_plain_PH (ICopy v dest) s1 eq_refl eq_refl I) as Pa.
    pose proof (PH_trans0 _ _ _ (exit_block_PH _ _ _ E2) (same_PH _ _ (release_same _ _ _ E3))) as P3.
    pose proof (PH_trans0 _ _ _ P01 (PH_trans0 _ _ _ Pa P3)) as P. split; auto. split; [cbn; rewrite bare_length; reflexivity|].
    split; [|split; [|discriminate]].
    + pose proof (PH_len _ _ _ P3) as L3. destruct (append_instr_grow (ICopy v dest) s1) as [_ Ba]. rewrite Ba, app_length in L3. cbn [length] in L3. lia.
    + apply (ph_grow _ _ _ P3), (ph_grow _ _ _ Pa), (ph_grow _ _ _ P1). cbn [instrs new_basic_block with_code]. rewrite <- bare_length. exact Ld.
Qed.

(** An instruction to be completed. *)
Lemma hole_PH : forall i s, (forall t, In t (jumps i) -> t = 0) -> ids i = [] -> PH [length (bare s)] s (append_instr i s).
Proof.
  intros i s J Ii. destruct (append_instr_grow i s) as [Gr Br]. destruct (append_instr_same i s) as [B1 B2].
  constructor; [auto|lia|auto|]. exists [i]. split; auto. split; [|split; [|split]].
  - intros [|[|j]] x E N; try discriminate. exfalso. apply N. left. lia.
  - intros [|[|j]] x t E It; try discriminate. injection E as <-. rewrite (J t It). lia.
  - cbn. rewrite Ii. constructor.
  - cbn. rewrite Ii. constructor.
Qed.

Lemma branches_PH : forall comp, comp_gen comp -> forall exit dest ts s tgts gotos s', Forall (fun p => W (snd p)) ts ->
  select_branches comp exit dest ts s = Some (tgts, gotos, s') ->
  PH gotos s s' /\ map fst tgts = map fst ts /\
  (forall tag pc, In (tag, pc) tgts -> length (bare s) <= pc < length (bare s') /\ lands s' pc) /\
  (forall g, In g gotos -> length (bare s) <= g /\ nth_error (bare s') g = Some (IGoto 0)) /\
  (exit = true -> gotos = [] /\ forall pc i t, length (bare s) <= pc -> nth_error (bare s') pc = Some i -> In t (jumps i) -> t < length (bare s')).
Proof.
  intros comp C exit dest. induction ts as [|[tag e] ts IH]; intros s tgts gotos s' F E; cbn [select_branches] in E.
  - injection E as <- <- <-. split; [apply PH_refl|]. split; auto. split; [intros ? ? []|]. split; [intros ? []|]. intros _. split; auto.
    intros pc i t L E. assert (X : nth_error (bare s) pc <> None) by congruence. apply nth_error_Some in X. lia.
  - inversion F as [|? ? We Ft]; subst. cbn [snd] in We. destruct (select_branch comp exit dest e s) as [[pc s1]|] eqn:E1; [|discriminate].
    destruct (branch_PH _ C _ _ _ _ _ _ We E1) as [P1 [Epc [L1 [Ld1 T1]]]]. cbv zeta in E.
    set (s2 := if exit then s1 else append_instr (IGoto 0) s1) in *.
    assert (P2 : PH (if exit then [] else [length (bare s1)]) s1 s2).
    { subst s2. destruct exit; [apply PH_refl|]. apply hole_PH; auto. cbn. intros t [<-|[]]. auto. }
    destruct (select_branches comp exit dest ts s2) as [[[tgts' gotos'] s3]|] eqn:E3; [|discriminate]. injection E as <- <- <-.
    destruct (IH _ _ _ _ Ft E3) as [P3 [M3 [T3 [G3 X3]]]].
    pose proof (PH_len _ _ _ P2) as L2. pose proof (PH_len _ _ _ P3) as L3.
    destruct (PH_bare _ _ _ P2) as [g2 B2]. destruct (PH_bare _ _ _ P3) as [g3 B3].
    split; [|split; [|split; [|split]]].
    + eapply PH_trans; [exact P1| |intros x []|intros x I; exact I]. eapply PH_trans; [exact P2|exact P3| |].
      * intros x I. destruct exit; [destruct I|]. destruct I as [<-|[]]. left. rewrite bare_length. auto.
      * intros x I. destruct exit; auto. right. auto.
    + cbn. f_equal. auto.
    + intros tg q [Q|Q].
      * injection Q as <- <-. split; [lia|]. apply (ph_grow _ _ _ P3), (ph_grow _ _ _ P2). auto.
      * destruct (T3 _ _ Q) as [Q1 Q2]. split; auto. lia.
    + intros g I. destruct exit.
      * destruct (G3 g I) as [G1 G2]. split; auto. lia.
      * destruct I as [<-|I]; [|destruct (G3 g I) as [G1 G2]; split; auto; lia].
        rewrite <- bare_length. split; [lia|]. rewrite B3. subst s2. destruct (append_instr_grow (IGoto 0) s1) as [_ Ba]. rewrite Ba.
        rewrite <- app_assoc, nth_error_app2, Nat.sub_diag by lia. reflexivity.
    + intros ->. destruct (X3 eq_refl) as [-> X]. split; auto.
      subst s2. intros q i t Lq Eq It. destruct (Nat.lt_ge_cases q (length (bare s1))) as [Lt|Ge]; [|eapply X; eauto].
      rewrite B3, nth_error_app1 in Eq by auto. destruct (T1 eq_refl) as [_ T]. specialize (T _ _ _ Lq Eq It). lia.
Qed.

(** Completing an instruction. *)
Lemma patch_same : forall pc i s, block (patch pc i s) = block s /\ bnext (patch pc i s) = bnext s /\ active (patch pc i s) = active s /\
  pending (patch pc i s) = pending s /\ length (instrs (patch pc i s)) = length (instrs s) /\ grow s (patch pc i s).
Proof.
  intros pc i s. unfold patch. destruct (nth_error (instrs s) pc) as [[ops j]|] eqn:E; [|repeat split; auto; intros t L; exact L].
  cbn [block bnext active pending instrs with_code]. rewrite set_nth_length. repeat split; auto.
  intros t [[ops' [i' [E' N]]]|[-> L]]; [left|right; cbn [instrs with_code active pending]; rewrite set_nth_length; auto].
  cbn [instrs with_code]. rewrite nth_set by (apply nth_error_Some; congruence). destruct (t =? pc) eqn:Q; [|eauto].
  apply Nat.eqb_eq in Q. subst t. rewrite E in E'. injection E' as <- <-. eauto.
Qed.

Lemma flat_map_set : forall pc i j l, nth_error l pc = Some j -> ids i = ids j -> flat_map ids (set_nth pc i l) = flat_map ids l.
Proof.
  induction pc as [|pc IH]; intros i j l E Q; destruct l as [|x l]; try discriminate; cbn in *; [injection E as ->; rewrite Q; reflexivity|]. erewrite IH; eauto.
Qed.

Lemma set_nth_app : forall {A} n (x : A) l l', set_nth (length l + n) x (l ++ l') = l ++ set_nth n x l'.
Proof. intros A n x l l'. induction l as [|y l IH]; cbn; auto. rewrite IH. reflexivity. Qed.

Lemma patch_PH : forall H s s' pc i j, PH (pc :: H) s s' -> length (bare s) <= pc -> nth_error (bare s') pc = Some j -> ids j = [] -> ids i = [] ->
  good_at s' pc i -> PH H s (patch pc i s').
Proof.
  intros H s s' pc i j P L E Ij Ii G. destruct (patch_same pc i s') as [B1 [B2 [_ [_ [Ln Gr]]]]].
  assert (Lt : pc < length (bare s')) by (apply nth_error_Some; congruence).
  pose proof (bare_patch pc i s') as Bp. replace (pc <? length (bare s')) with true in Bp by (symmetry; apply Nat.ltb_lt; auto).
  destruct P as [A1 A2 A3 [seg [Es [A4 [A5 [A6 A7]]]]]].
  rewrite Es, nth_error_app2 in E by lia.
  assert (Bs : bare (patch pc i s') = bare s ++ set_nth (pc - length (bare s)) i seg).
  { rewrite Bp, Es. rewrite <- set_nth_app. f_equal. lia. }
  constructor; [congruence|lia|intros t X; apply Gr, A3, X|].
  exists (set_nth (pc - length (bare s)) i seg). split; auto.
  assert (Lp : length (bare (patch pc i s')) = length (bare s')) by (rewrite !bare_length; auto).
  assert (Ls : pc - length (bare s) < length seg) by (apply nth_error_Some; congruence).
  split; [|split; [|split]].
  - intros k x Ex Nx. rewrite nth_set in Ex by auto. destruct (k =? pc - length (bare s)) eqn:Q.
    + apply Nat.eqb_eq in Q. injection Ex as <-. replace (length (bare s) + k) with pc by lia. eapply good_at_grow; eauto.
    + apply Nat.eqb_neq in Q. eapply good_at_grow; eauto. apply A4; auto. intros [X|X]; [lia|auto].
  - intros k x t Ex It. rewrite Lp. rewrite nth_set in Ex by auto. destruct (k =? pc - length (bare s)) eqn:Q; [|eauto].
    injection Ex as <-. destruct G as [G _]. apply lands_len. apply G. auto.
  - erewrite flat_map_set; eauto. congruence.
  - erewrite flat_map_set; eauto; [rewrite B2; auto|congruence].
Qed.

Lemma patches_PH : forall gotos H s s', PH (gotos ++ H) s s' -> lands s' (length (bare s')) -> active s' = None ->
  (forall g, In g gotos -> length (bare s) <= g < length (bare s') /\ exists t, nth_error (bare s') g = Some (IGoto t)) ->
  PH H s (fold_left (fun s pc => patch pc (IGoto (length (instrs s))) s) gotos s').
Proof.
  induction gotos as [|g gotos IH]; intros H s s' P L A G; cbn [fold_left]; [exact P|].
  destruct (G g (or_introl eq_refl)) as [[G1 G2] [t G3]].
  set (s1 := patch g (IGoto (length (instrs s'))) s').
  destruct (patch_same g (IGoto (length (instrs s'))) s') as [B1 [B2 [B3 [B4 [B5 Gr]]]]]. fold s1 in B1, B2, B3, B4, B5, Gr.
  assert (Bl : length (bare s1) = length (bare s')) by (rewrite !bare_length; auto).
  assert (P1 : PH (gotos ++ H) s s1).
  { eapply patch_PH; eauto; try reflexivity. split; auto. cbn. intros t' [<-|[]]. rewrite <- bare_length. split; auto. }
  apply (IH H s s1 P1).
  - rewrite Bl. apply Gr. auto.
  - congruence.
  - intros x I. destruct (G x (or_intror I)) as [X1 [t' X2]]. rewrite Bl. split; auto.
    unfold s1. rewrite bare_patch. replace (g <? length (bare s')) with true by (symmetry; apply Nat.ltb_lt; auto).
    rewrite nth_set by auto. destruct (x =? g); eauto.
Qed.

Lemma sorted_tags : forall (tgts : list (nat * nat)) lo, sorted_from lo (map fst tgts) = true ->
  (forall i t, nth_error tgts i = Some t -> lo <= fst t) /\ sorted_targets tgts.
Proof.
  induction tgts as [|x tgts IH]; intros lo S; cbn [map sorted_from] in S.
  - split; [intros [|i] t E; discriminate|intros [|i] [|j] ti tj _ E; discriminate].
  - apply andb_true_iff in S. destruct S as [S1 S2]. apply Nat.leb_le in S1. destruct (IH _ S2) as [A B]. split.
    + intros [|i] t E; cbn in E; [injection E as <-; auto|]. specialize (A _ _ E). lia.
    + intros [|i] [|j] ti tj L Ei Ej; try lia; cbn in Ei, Ej.
      * injection Ei as <-. specialize (A _ _ Ej). lia.
      * apply (B i j); auto. lia.
Qed.

Lemma W_list : forall ns na env es, forallb (wf ns na env) es = true -> Forall W es.
Proof. intros ns na env es F. rewrite forallb_forall in F. apply Forall_forall. intros e I. exists ns, na, env. auto. Qed.

Lemma finish_gen_ok : forall s nargs ns bst, PH [] bst s -> instrs bst = [] -> tight bst s -> gen_ok (finish_code nargs ns s) /\
  exists seg, bare s = seg /\ map code_block (collect (finish_code nargs ns s)) = block s :: flat_map ids seg.
Proof.
  intros s nargs ns bst P B T. destruct P as [_ _ _ [seg [E [G [_ _]]]]]. assert (Bb : bare bst = []) by (unfold bare; rewrite B; auto). rewrite Bb in *. cbn [app length] in *.
  assert (Gd : forall pc ops i, nth_error (instrs s) pc = Some (ops, i) -> good_at s pc i).
  { intros pc ops i Ei. apply (G pc i); [|intros []]. rewrite <- E. unfold bare. rewrite nth_error_map, Ei. reflexivity. }
  split.
  - constructor.
    + intros pc ops i Ei. cbn [finish_code code_instrs] in *. destruct (Gd _ _ _ Ei) as [J M]. split; [|split].
      * intros t It. destruct (J t It) as [Lt Ld]. split; auto. destruct Ld as [[ops' [i' X]]|[-> _]]; [eauto|]. exfalso.
        destruct T as [_ T]. specialize (T pc i (length (instrs s))). rewrite Bb in T. cbn in T. rewrite bare_length in T.
        apply (Nat.lt_irrefl (length (instrs s))). apply T; auto; [lia|]. unfold bare. rewrite nth_error_map, Ei. reflexivity.
      * intros cond nt ts d ->. exact M.
      * intros d off c' scope ->. apply M.
    + cbn [finish_code code_instrs]. intros ops d off c' scope I. apply In_nth_error in I. destruct I as [pc Ei]. apply Gd in Ei. apply Ei.
  - exists seg. split; auto. unfold finish_code. rewrite collect_ids. f_equal. rewrite <- E. reflexivity.
Qed.

Theorem compile_gen : forall k, comp_gen (compile k).
Proof.
  induction k as [|k IH]; intros exit e s r s' [ns [na [env Wf]]] E; [discriminate|].
  destruct e as [|v|rec bs b|fs|src fs|t a|c nt ts dflt|isS o t|scope b|g a|fs|ls]; cbn [compile] in E; cbn [wf] in Wf.
  - (* type *)
    destruct (new_local s) as [d s1] eqn:N. injection E as <- <-.
    eapply (finish_PH exit s s s1 _ (Local d) (IType d)); [apply PH_refl|eapply new_local_same; eauto|reflexivity|exact I|apply same_refl].
  - (* var *)
    destruct (get_var v s) as [[x|]|] eqn:G; try discriminate. injection E as <- <-.
    destruct (exit_PH exit x (retain x s)) as [P T]. pose proof (retain_same x s) as Sm.
    split; [eapply PH_trans0; [apply same_PH; exact Sm|exact P]|]. intros Ex. eapply same_tight_l; [exact Sm|auto].
  - (* let *)
    apply andb_true_iff in Wf. destruct Wf as [W1 W2].
    destruct (let_vars rec (length bs) s) as [ds s1] eqn:E1. pose proof (let_vars_PH _ _ _ _ _ E1) as P1.
    destruct (let_defs (compile k) bs s1) as [[defs s2]|] eqn:E2; [|discriminate]. pose proof (let_defs_PH _ IH _ _ _ _ (W_list _ _ _ _ W1) E2) as P2.
    destruct (let_sets ds (length (vars s)) defs s2) as [s3|] eqn:E3; [|discriminate]. pose proof (let_sets_PH _ _ _ _ _ E3) as P3.
    destruct (compile k exit b s3) as [[r4 s4]|] eqn:E4; [|discriminate]. destruct (IH exit b _ _ _ ltac:(do 3 eexists; exact W2) E4) as [P4 T4].
    destruct (pop_vars (length bs) s4) as [s5|] eqn:E5; [|discriminate]. injection E as <- <-. pose proof (pop_vars_same _ _ _ E5) as Sm.
    pose proof (PH_trans0 _ _ _ P1 (PH_trans0 _ _ _ P2 P3)) as P13.
    split; [eapply PH_trans0; [exact P13|]; eapply PH_trans0; [exact P4|apply same_PH; exact Sm]|].
    intros Ex. eapply same_tight; [|exact Sm]. eapply tight_after; [exact P13|auto|eapply PH_bare; eauto].
  - (* struct *)
    destruct (compile_list (compile k) fs s) as [[vs s1]|] eqn:E1; [|discriminate]. pose proof (compile_list_PH _ IH _ _ _ _ (W_list _ _ _ _ Wf) E1) as P1.
    destruct (new_local s1) as [d s2] eqn:N. destruct (releases vs _) as [s3|] eqn:E3; [|discriminate]. injection E as <- <-.
    eapply (finish_PH exit s s1 s2 _ (Local d) (IStruct vs d)); [exact P1|eapply new_local_same; eauto|reflexivity|exact I|eapply releases_same; eauto].
  - (* copy *)
    apply andb_true_iff in Wf. destruct Wf as [W1 W2].
    destruct (compile k false src s) as [[[sv|] s1]|] eqn:E1; try discriminate. destruct (IH _ _ _ _ _ ltac:(do 3 eexists; exact W1) E1) as [P1 _].
    destruct (compile_fields (compile k) sv 0 fs s1) as [[vs s2]|] eqn:E2; [|discriminate].
    assert (P2 : PH [] s1 s2).
    { eapply compile_fields_PH; [exact IH| |exact E2]. rewrite forallb_forall in W2. apply Forall_forall. intros [e|] Io; auto. do 3 eexists. apply (W2 _ Io). }
    destruct (new_local s2) as [d s3] eqn:N. cbv zeta in E.
    destruct (releases vs _) as [s5|] eqn:E3; [|discriminate]. destruct (release (Some sv) s5) as [s6|] eqn:E4; [|discriminate]. injection E as <- <-.
    eapply (finish_PH exit s s2 s3 _ (Local d) (IStruct vs d)); [eapply PH_trans0; eauto|eapply new_local_same; eauto|reflexivity|exact I|].
    eapply same_trans; [eapply releases_same; eauto|eapply release_same; eauto].
  - (* union *)
    destruct (compile k false a s) as [[[v|] s1]|] eqn:E1; try discriminate. destruct (IH _ _ _ _ _ ltac:(do 3 eexists; exact Wf) E1) as [P1 _].
    destruct (new_local s1) as [d s2] eqn:N. cbv zeta in E. destruct (release (Some v) _) as [s3|] eqn:E3; [|discriminate]. injection E as <- <-.
    eapply (finish_PH exit s s1 s2 _ (Local d) (IUnion t v d)); [exact P1|eapply new_local_same; eauto|reflexivity|exact I|eapply release_same; eauto].
  - (* select *)
    apply andb_true_iff in Wf. destruct Wf as [Wf Wn2]. apply andb_true_iff in Wf. destruct Wf as [Wf Wn]. apply andb_true_iff in Wf. destruct Wf as [Wf Ws]. apply andb_true_iff in Wf. destruct Wf as [Wf Wd].
    apply andb_true_iff in Wf. destruct Wf as [Wc Wt].
    destruct (compile k false c s) as [[[cv|] s1]|] eqn:E1; try discriminate. destruct (IH _ _ _ _ _ ltac:(do 3 eexists; exact Wc) E1) as [P1 _]. cbv zeta in E.
    set (pc := length (bare s1)).
    assert (P2 : PH [pc] s1 (append_instr (ISelect cv nt [] 0) s1)) by (apply hole_PH; auto; cbn; intros t [<-|[]]; auto).
    destruct (append_instr_grow (ISelect cv nt [] 0) s1) as [_ B2].
    set (s2 := append_instr (ISelect cv nt [] 0) s1) in *.
    destruct (if exit then (0, s2) else new_local s2) as [dest s3] eqn:E3.
    assert (Sm3 : same_code s2 s3).
    { destruct exit; [injection E3 as _ <-; apply same_refl|]. apply (new_local_same s2 dest s3). exact E3. }
    assert (B3 : bare s3 = bare s2) by (unfold bare; rewrite (proj1 Sm3); auto).
    pose proof (PH_trans [pc] [pc] [] _ _ _ P2 (same_PH _ _ Sm3) (fun x X => X) (fun x X => match X with end)) as P3.
    destruct (select_branches (compile k) exit dest ts s3) as [[[tgts gotos] s4]|] eqn:E4; [|discriminate].
    assert (Ft : Forall (fun p : nat * tc => W (snd p)) ts).
    { rewrite forallb_forall in Wt. apply Forall_forall. intros p Ip. do 3 eexists. apply (Wt _ Ip). }
    destruct (branches_PH _ IH exit dest ts s3 tgts gotos s4 Ft E4) as [P4 [M4 [T4 [G4 X4]]]].
    destruct (select_branch (compile k) exit dest dflt s4) as [[dpc s5]|] eqn:E5; [|discriminate].
    destruct (branch_PH _ IH exit dest dflt s4 dpc s5 ltac:(do 3 eexists; exact Wd) E5) as [P5 [Ed [L5 [Ld5 T5]]]].
    set (s6 := if exit then s5 else append_instr INop s5) in *.
    assert (P6 : PH [] s5 s6) by (subst s6; destruct exit; [apply PH_refl|apply append_plain_PH; cbn; auto]).
    destruct (basic_PH s6) as [P7 Ld7]. set (s7 := new_basic_block s6) in *.
    pose proof (PH_trans0 _ _ _ P5 (PH_trans0 _ _ _ P6 P7)) as P57.
    assert (P37 : PH gotos s3 s7) by (eapply PH_trans; [exact P4|exact P57|auto|intros x []]).
    assert (P17 : PH (pc :: gotos) s1 s7).
    { eapply PH_trans; [exact P3|exact P37| |]; intros x Ix; [destruct Ix as [<-|[]]; left; auto|right; auto]. }
    pose proof (PH_len _ _ _ P4) as Ln4. pose proof (PH_len _ _ _ P57) as Ln57. pose proof (PH_len _ _ _ P6) as Ln6. rewrite B3, B2, app_length in Ln4. cbn [length] in Ln4.
    destruct (PH_bare _ _ _ P37) as [g37 B37]. destruct (PH_bare _ _ _ P57) as [g57 B57].
    assert (Hole : nth_error (bare s7) pc = Some (ISelect cv nt [] 0)).
    { rewrite B37, B3, B2, <- app_assoc, nth_error_app2 by (unfold pc; lia). unfold pc. rewrite Nat.sub_diag. reflexivity. }
    assert (B7 : bare s7 = bare s6) by reflexivity.
    assert (Tg : forall q, In q (map snd tgts ++ [dpc]) -> pc < q /\ q < length (bare s7) /\ lands s7 q).
    { intros q Iq. apply in_app_or in Iq. destruct Iq as [Iq|[<-|[]]].
      - apply in_map_iff in Iq. destruct Iq as [[tag q'] [Q Iq]]. cbn in Q. subst q'. destruct (T4 _ _ Iq) as [Q1 Q2]. rewrite B3, B2, app_length in Q1. cbn [length] in Q1.
        split; [unfold pc; lia|]. split; [lia|]. apply (ph_grow _ _ _ P57). auto.
      - split; [unfold pc; lia|]. rewrite B7. split; [lia|]. apply (ph_grow _ _ _ P7), (ph_grow _ _ _ P6). auto. }
    assert (Gd : good_at s7 pc (ISelect cv nt tgts dpc)).
    { split; [intros q Iq; destruct (Tg q Iq) as [Q1 [_ Q3]]; auto|]. split; [apply (sorted_tags tgts 0); rewrite M4; auto|].
      intros t It. apply (in_map fst) in It. rewrite M4 in It. rewrite forallb_forall in Wn. apply Nat.ltb_lt. apply Wn. exact It. }
    pose proof (patch_PH gotos s1 s7 pc (ISelect cv nt tgts dpc) _ P17 (le_n _) Hole eq_refl eq_refl Gd) as P8.
    destruct (patch_same pc (ISelect cv nt tgts dpc) s7) as [_ [_ [A8 [_ [L8 Gr8]]]]].
    assert (B8 : bare (patch pc (ISelect cv nt tgts dpc) s7) = set_nth pc (ISelect cv nt tgts dpc) (bare s7)).
    { rewrite bare_patch. replace (pc <? length (bare s7)) with true; auto. symmetry. apply Nat.ltb_lt. apply nth_error_Some. congruence. }
    set (s8 := patch pc (ISelect cv nt tgts dpc) s7) in *.
    assert (Lb8 : length (bare s8) = length (bare s7)) by (rewrite B8, set_nth_length; auto).
    assert (P9 : PH [] s1 (fold_left (fun s pc => patch pc (IGoto (length (instrs s))) s) gotos s8)).
    { apply patches_PH.
      - rewrite app_nil_r. exact P8.
      - rewrite Lb8. apply Gr8. exact Ld7.
      - rewrite A8. reflexivity.
      - intros g Ig. destruct (G4 g Ig) as [G1 G2]. rewrite B3, B2, app_length in G1. cbn [length] in G1.
        assert (G3 : nth_error (bare s7) g = Some (IGoto 0)) by (rewrite B57, nth_error_app1 by (apply nth_error_Some; congruence); exact G2).
        rewrite Lb8. split; [split; [lia|apply nth_error_Some; congruence]|]. exists 0. rewrite B8. rewrite nth_set by (apply nth_error_Some; congruence).
        replace (g =? pc) with false by (symmetry; apply Nat.eqb_neq; unfold pc; lia). exact G3. }
    match goal with H : context [release (Some cv) ?x] |- _ => set (s9 := x) in *; destruct (release (Some cv) s9) as [s10|] eqn:E10; [|discriminate] end.
    injection E as <- <-. pose proof (release_same _ _ _ E10) as Sm10.
    change (fold_left (fun s pc => patch pc (IGoto (length (instrs s))) s) gotos s8) with
      (fold_left (fun s pc => patch pc (IGoto (length (instrs s))) s) gotos (patch pc (ISelect cv nt tgts dpc) s7)) in P9.
    assert (E9 : s9 = fold_left (fun s pc => patch pc (IGoto (length (instrs s))) s) gotos s8) by (subst s9 s8; unfold pc; rewrite bare_length; reflexivity).
    assert (P9' : PH [] s1 s9) by (rewrite E9; exact P9). clearbody s9.
    split; [eapply PH_trans0; [exact P1|]; eapply PH_trans0; [exact P9'|apply same_PH; exact Sm10]|].
    intros ->. destruct (X4 eq_refl) as [-> X]. cbn [fold_left] in E9.
    eapply same_tight; [|exact Sm10]. rewrite E9. eapply tight_after; [exact P1| |eapply PH_bare; exact P8].
    split; [rewrite Lb8; lia|]. rewrite Lb8. intros q i t Lq Eq It. rewrite B8, nth_set in Eq by (apply nth_error_Some; congruence).
    destruct (q =? pc) eqn:Q; [injection Eq as <-; apply (Tg t It)|]. apply Nat.eqb_neq in Q.
    destruct (T5 eq_refl) as [_ T5']. cbn [fold_left] in *.
    assert (B75 : bare s7 = bare s5) by reflexivity. rewrite B75 in *.
    destruct (Nat.lt_ge_cases q (length (bare s4))) as [Lt|Ge].
    + rewrite B57, nth_error_app1 in Eq by auto. assert (t < length (bare s4)); [|lia]. apply (X q i); auto. rewrite B3, B2, app_length. cbn. unfold pc in Q. lia.
    + apply (T5' q i); auto.
  - (* access *)
    destruct (compile k false o s) as [[[v|] s1]|] eqn:E1; try discriminate. destruct (IH _ _ _ _ _ ltac:(do 3 eexists; exact Wf) E1) as [P1 _].
    destruct (new_local s1) as [d s2] eqn:N. cbv zeta in E. destruct (release (Some v) _) as [s3|] eqn:E3; [|discriminate]. injection E as <- <-.
    eapply (finish_PH exit s s1 s2 _ (Local d) (IAccess isS v t d)); [exact P1|eapply new_local_same; eauto|reflexivity|exact I|eapply release_same; eauto].
  - (* func *)
    apply andb_true_iff in Wf. destruct Wf as [W1 W2].
    destruct (merge_func scope b) as [nargs b'] eqn:M. destruct (merge_func_spec _ _ _ _ M W2) as [W3 _].
    destruct (get_vars scope s) as [svs|] eqn:Gv; [|discriminate].
    unfold push_block in E. cbv zeta in E. cbn [with_blocks bstack bnext] in E.
    destruct (compile k true b' _) as [[rf fs]|] eqn:E1; [|discriminate].
    destruct (IH _ _ _ _ _ ltac:(do 3 eexists; exact W3) E1) as [P1 T1]. specialize (T1 eq_refl).
    destruct (exit_block true fs) as [fs1|] eqn:E2; [|discriminate]. destruct (release rf fs1) as [fs2|] eqn:E3; [|discriminate].
    destruct (free_scope fs2) as [fs3|]; [|discriminate].
    pose proof (same_trans _ _ _ (exit_block_same _ _ E2) (release_same _ _ _ E3)) as Smf.
    pose proof (PH_trans0 _ _ _ P1 (same_PH _ _ Smf)) as P2. pose proof (same_tight _ _ _ T1 Smf) as T2.
    destruct (finish_gen_ok fs2 nargs (length scope) _ P2 eq_refl T2) as [Gok [seg [Bs Cs]]].
    match goal with H : context [new_local ?x] |- _ => set (s2 := x) in *; destruct (new_local s2) as [d s3] eqn:N end.
    injection E as <- <-. pose proof (new_local_same _ _ _ N) as Sm3.
    set (i := IFunc d (bnext s - block s3) (finish_code nargs (length scope) fs2) svs).
    pose proof (ph_bnext _ _ _ P2) as Bn. pose proof (ph_block _ _ _ P2) as Bk. cbn in Bn, Bk.
    assert (Lv : length svs = length scope).
    { clear -Gv. revert svs Gv. induction scope as [|v sc IHs]; intros svs E; cbn [get_vars] in E; [injection E as <-; reflexivity|].
      destruct (get_var v s) as [[x|]|]; try discriminate. destruct (get_vars sc s) as [xs|]; [|discriminate]. injection E as <-. cbn. f_equal. auto. }
    assert (Pa : PH [] s (append_instr i s3)).
    { destruct Sm3 as (I3 & Q3 & A3 & K3 & N3).
      apply append_PH; [reflexivity| |rewrite I3; reflexivity|rewrite Q3; reflexivity|rewrite A3; reflexivity|rewrite K3; reflexivity|rewrite N3; unfold s2; cbn; lia| |].
      - cbn. split; auto.
      - cbn [ids i]. rewrite Cs. destruct P2 as [_ _ _ [seg' [Es [_ [_ [Nd Fd]]]]]]. cbn in Es. rewrite Bs in Es. subst seg'. constructor; auto.
        intros Ib. rewrite Forall_forall in Fd. specialize (Fd _ Ib). cbn in Fd. lia.
      - cbn [ids i]. rewrite Cs, N3. unfold s2. cbn [bnext with_blocks]. destruct P2 as [_ _ _ [seg' [Es [_ [_ [Nd Fd]]]]]]. cbn in Es. rewrite Bs in Es. subst seg'.
        constructor; [lia|]. eapply Forall_impl; [|exact Fd]. cbn. intros. lia. }
    destruct (exit_PH exit (Local d) (append_instr i s3)) as [Pe Te].
    split; [eapply PH_trans0; eauto|]. intros Ex. eapply tight_after; [exact Pa|auto|eapply PH_bare; eauto].
  - (* apply *)
    destruct (spine (TApply g a) []) as [h args] eqn:Sp.
    destruct (spine_spec _ _ _ _ Sp) as [_ [_ [_ [Sw _]]]]. destruct (Sw ns na env) as [Wh Wa]; [cbn; exact Wf|reflexivity|].
    destruct (compile k false h s) as [[[fv|] s1]|] eqn:E1; try discriminate. destruct (IH _ _ _ _ _ ltac:(do 3 eexists; exact Wh) E1) as [P1 _].
    destruct (compile_list (compile k) (rev args) s1) as [[ravs s2]|] eqn:E2; [|discriminate].
    pose proof (compile_list_PH _ IH _ _ _ _ (Forall_rev (W_list _ _ _ _ Wa)) E2) as P2. cbv zeta in E.
    destruct (if exit then (0, s2) else new_local s2) as [dest s3] eqn:E3.
    assert (Sm3 : same_code s2 s3).
    { destruct exit; [injection E3 as _ <-; apply same_refl|]. apply (new_local_same s2 dest s3). exact E3. }
    set (i := if exit then ITail fv (rev ravs) else ICall fv (rev ravs) dest) in *.
    assert (J : jumps i = [] /\ ids i = [] /\ match i with IFunc _ _ _ _ => False | _ => True end) by (subst i; destruct exit; cbn; auto).
    destruct J as [J1 [J2 J3]].
    match goal with H : context [release (Some fv) ?x] |- _ => set (s4 := x) in *; destruct (release (Some fv) s4) as [s5|] eqn:E5; [|discriminate] end.
    destruct (releases (rev ravs) s5) as [s6|] eqn:E6; [|discriminate]. injection E as <- <-.
    pose proof (same_trans _ _ _ (release_same _ _ _ E5) (releases_same _ _ _ E6)) as Sm.
    pose proof (PH_trans0 _ _ _ P1 (PH_trans0 _ _ _ P2 (same_PH _ _ Sm3))) as P13.
    pose proof (append_plain_PH i s3 J1 J2 J3) as Pa. destruct (basic_PH (append_instr i s3)) as [Pb _].
    split; [eapply PH_trans0; [exact P13|]; eapply PH_trans0; [exact Pa|]; eapply PH_trans0; [exact Pb|apply same_PH; exact Sm]|].
    intros _. eapply same_tight; [|exact Sm]. eapply tight_after; [exact P13| |eapply PH_bare; eapply PH_trans0; [exact Pa|exact Pb]].
    pose proof (append_tight i s3 J1) as T. exact T.
  - (* list *)
    destruct (compile_list (compile k) fs s) as [[vs s1]|] eqn:E1; [|discriminate]. pose proof (compile_list_PH _ IH _ _ _ _ (W_list _ _ _ _ Wf) E1) as P1.
    destruct (new_local s1) as [d s2] eqn:N. destruct (releases vs _) as [s3|] eqn:E3; [|discriminate]. injection E as <- <-.
    eapply (finish_PH exit s s1 s2 _ (Local d) (IList vs d)); [exact P1|eapply new_local_same; eauto|reflexivity|exact I|eapply releases_same; eauto].
  - (* literal *)
    destruct (new_local s) as [d s1] eqn:N. injection E as <- <-.
    eapply (finish_PH exit s s s1 _ (Local d) (ILiteral ls d)); [apply PH_refl|eapply new_local_same; eauto|reflexivity|exact I|apply same_refl].
Qed.

(** All compiled code is code the generator accepts; the functions of a module have different
    profile blocks, all of which it has names for. *)
Theorem compiled_gen_ok : forall nargs e c nblocks, wf 0 nargs [] e = true -> compile_code nargs e = Some (c, nblocks) ->
  gen_ok c /\ NoDup (map code_block (collect c)) /\ Forall (fun b => b < nblocks) (map code_block (collect c)).
Proof.
  intros nargs e c nblocks Wf E. unfold compile_code in E. cbv zeta in E.
  destruct (compile (size e) true e (init_scope nargs 0 0 [0] 1)) as [[r s]|] eqn:E1; [|discriminate].
  destruct (compile_gen _ _ _ _ _ _ ltac:(do 3 eexists; exact Wf) E1) as [P T]. specialize (T eq_refl).
  destruct (exit_block true s) as [s1|] eqn:E2; [|discriminate]. destruct (free_scope s1) as [s2|] eqn:E3; [|discriminate].
  destruct (bstack s2); [|discriminate]. injection E as <- <-.
  pose proof (exit_block_same _ _ E2) as Sm. unfold free_scope in E3. pose proof (pop_vars_same _ _ _ E3) as Sm2.
  assert (Bn : bnext s2 = bnext s1) by apply Sm2. rewrite Bn.
  pose proof (PH_trans0 _ _ _ P (same_PH _ _ Sm)) as P1. pose proof (same_tight _ _ _ T Sm) as T1.
  destruct (finish_gen_ok s1 nargs 0 _ P1 eq_refl T1) as [Gok [seg [Bs Cs]]]. split; auto. rewrite Cs.
  destruct P1 as [Bk B1 _ [seg' [Es [_ [_ [Nd Fd]]]]]]. cbn in Es, Bk, B1. rewrite Bs in Es. subst seg'. rewrite Bk. split; constructor; auto.
  - intros I0. rewrite Forall_forall in Fd. specialize (Fd _ I0). cbn in Fd. lia.
  - eapply Forall_impl; [|exact Fd]. cbn. intros. lia.
Qed.
