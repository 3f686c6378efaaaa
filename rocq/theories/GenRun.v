(** * The C generated for a function does what the interpreter does on its code. *)
From Coq Require Import ZArith List Arith Lia Bool.
From Verif Require Import PathModel LoadModel FuncModel CodeModel CodeProps CompileRel CompileCalls CompileStatic LinkModel GenModel GenCode FuncSim.
Import ListNotations.

Lemma select_assoc : forall nt ts d tag pc, sorted_targets ts -> select_target nt ts d tag = Some pc ->
  pc = match assoc tag ts with Some q => q | None => d end.
Proof.
  intros nt ts d tag pc So E. assert (Ne : ts <> []) by (intros ->; discriminate).
  assert (Lt : tag < nt).
  { unfold select_target in E. destruct ts; [discriminate|]. destruct (tag <? nt) eqn:Lt; [|discriminate]. apply Nat.ltb_lt. exact Lt. }
  destruct (select_target_correct nt ts d tag So Ne Lt) as [pc' [E' [A B]]]. rewrite E in E'. injection E' as <-.
  destruct (assoc tag ts) as [q|] eqn:Q.
  - apply A. clear -Q. induction ts as [|[j x] ts IH]; cbn in Q; [discriminate|]. destruct (tag =? j) eqn:J; [|right; auto].
    injection Q as ->. apply Nat.eqb_eq in J. subst. left. reflexivity.
  - apply B. clear -Q. induction ts as [|[j x] ts IH]; cbn in *; [tauto|]. destruct (tag =? j) eqn:J; [discriminate|]. apply Nat.eqb_neq in J.
    intros [->|I]; [congruence|]. apply IH; auto.
Qed.

Lemma select_jumps : forall (tag : nat) (ts : list (nat * nat)) d c n, In (match assoc tag ts with Some q => q | None => d end) (jumps (ISelect c n ts d)).
Proof.
  intros tag ts d c n. cbn [jumps]. apply in_or_app. induction ts as [|[j x] ts IH]; cbn; auto. destruct (tag =? j); cbn; auto. destruct IH; auto.
Qed.

(** ** Where things are in the body of a function *)

Definition labels_below (n : nat) (l : list stmt) := Forall (fun x => match x with CLabel q => q < n | _ => True end) l.
Definition exes_below (n : nat) (l : list stmt) := Forall (fun x => match x with CStaticExe q _ => q < n | _ => True end) l.
Definition lits_below (n : nat) (l : list stmt) := Forall (fun x => match x with CStaticLit q _ => q < n | _ => True end) l.

Lemma find_label_skip : forall n pre l, labels_below n pre -> find_label n (pre ++ l) = find_label n l.
Proof.
  intros n pre l F. induction F as [|x pre H F IH]; [reflexivity|]. cbn [app find_label]. destruct x; auto.
  replace (n =? pc) with false; auto. symmetry. apply Nat.eqb_neq. lia.
Qed.
Lemma static_exe_skip : forall n pre l, exes_below n pre -> static_exe n (pre ++ l) = static_exe n l.
Proof.
  intros n pre l F. induction F as [|x pre H F IH]; [reflexivity|]. cbn [app static_exe]. destruct x; auto.
  replace (n =? id) with false; auto. symmetry. apply Nat.eqb_neq. lia.
Qed.
Lemma static_lit_skip : forall n pre l, lits_below n pre -> static_lit n (pre ++ l) = static_lit n l.
Proof.
  intros n pre l F. induction F as [|x pre H F IH]; [reflexivity|]. cbn [app static_lit]. destruct x; auto.
  replace (n =? id) with false; auto. symmetry. apply Nat.eqb_neq. lia.
Qed.

Definition head_of (pc : nat) (jt : list nat) (ops : list prof_op) : list stmt :=
  (if existsb (Nat.eqb pc) jt then [CLabel pc] else []) ++ (match ops with [] => [] | _ => [CProfile ops] end).

(** The statements [rest] of [body] are those from instruction [pc] of [L] on. *)
Record at_pc (names : list str) (L : list (list prof_op * instr)) (body : list stmt) (pc : nat) (jt : list nat) (e l : nat) (pre rest : list stmt) : Prop := {
  a_emit : emit names (length L) pc jt e l (skipn pc L) = Some rest;
  a_body : body = pre ++ rest;
  a_labels : labels_below pc pre;
  a_exes : exes_below e pre;
  a_lits : lits_below l pre;
  a_jt : forall q ops i t, q < pc -> nth_error L q = Some (ops, i) -> In t (jumps i) -> In t jt }.

Lemma skipn_nth : forall {A} n (l : list A) x, nth_error l n = Some x -> skipn n l = x :: skipn (S n) l.
Proof. induction n; intros [|y l] x E; cbn in *; try discriminate; [congruence|]. apply IHn. auto. Qed.

Lemma emit_instr_kinds : forall names pc e l i x, emit_instr names pc e l i = Some x ->
  labels_below (S pc) x /\
  exes_below (match i with IFunc _ _ _ _ => S e | _ => e end) x /\ lits_below (match i with ILiteral _ _ => S l | _ => l end) x.
Proof.
  intros names pc e l i x E. unfold labels_below, exes_below, lits_below. destruct i; cbn [emit_instr] in E; try (injection E as <-; repeat split; repeat constructor; fail).
  - destruct is_struct; injection E as <-; repeat split; repeat constructor.
  - destruct (symbol names (code_block c)); [|discriminate]. destruct (code_num_statics c <=? length scope); [|discriminate]. injection E as <-. repeat split; repeat constructor.
Qed.

Lemma below_app : forall (P : nat -> stmt -> Prop) n m a b, (forall x, P n x -> P m x) -> Forall (P n) a -> Forall (P m) b -> Forall (P m) (a ++ b).
Proof. intros P n m a b H A B. apply Forall_app. split; auto. eapply Forall_impl; [|exact A]. auto. Qed.

Lemma at_next : forall names L body pc jt e l pre rest ops i, at_pc names L body pc jt e l pre rest -> nth_error L pc = Some (ops, i) ->
  exists x rest', emit_instr names pc e l i = Some x /\ rest = head_of pc jt ops ++ x ++ rest' /\
    at_pc names L body (S pc) (jumps i ++ jt) (match i with IFunc _ _ _ _ => S e | _ => e end) (match i with ILiteral _ _ => S l | _ => l end)
      (pre ++ head_of pc jt ops ++ x) rest' /\
    (forall t, In t (jumps i) -> pc < t < length L).
Proof.
  intros names L body pc jt e l pre rest ops i [Em Bo La Ex Li Jt] N. rewrite (skipn_nth _ _ _ N) in Em. cbn [emit] in Em.
  destruct (forallb _ (jumps i)) eqn:Jo; [|discriminate]. destruct (emit_instr names pc e l i) as [x|] eqn:Ei; [|discriminate].
  destruct (emit names (length L) (S pc) _ _ _ (skipn (S pc) L)) as [rest'|] eqn:Er; [|discriminate]. injection Em as <-.
  destruct (emit_instr_kinds _ _ _ _ _ _ Ei) as [K1 [K2 K3]].
  exists x, rest'. split; auto. split; [unfold head_of; rewrite <- app_assoc; reflexivity|]. split.
  - constructor; auto.
    + rewrite Bo. unfold head_of. rewrite <- !app_assoc. reflexivity.
    + apply Forall_app. split; [|apply Forall_app; split; auto].
      * eapply Forall_impl; [|exact La]. intros []; auto.
      * unfold head_of. destruct (existsb _ jt), ops; cbn; repeat constructor.
    + apply Forall_app. split; [|apply Forall_app; split; auto].
      * eapply Forall_impl; [|exact Ex]. intros []; auto. destruct i; lia.
      * unfold head_of. destruct (existsb _ jt), ops; cbn; repeat constructor.
    + apply Forall_app. split; [|apply Forall_app; split; auto].
      * eapply Forall_impl; [|exact Li]. intros []; auto. destruct i; lia.
      * unfold head_of. destruct (existsb _ jt), ops; cbn; repeat constructor.
    + intros q ops' i' t Lq Nq It. apply in_or_app. destruct (Nat.eq_dec q pc) as [->|Ne]; [left; congruence|right]. apply (Jt q ops' i'); auto. lia.
  - intros t It. rewrite forallb_forall in Jo. specialize (Jo t It). apply andb_true_iff in Jo. rewrite !Nat.ltb_lt in Jo. exact Jo.
Qed.

(** Every later instruction has its place further on. *)
Lemma at_later : forall names L body n pc jt e l pre rest, at_pc names L body pc jt e l pre rest -> pc + n <= length L ->
  exists jt' e' l' pre' rest', at_pc names L body (pc + n) jt' e' l' pre' rest' /\ length rest' <= length rest.
Proof.
  intros names L body n. induction n as [|n IH]; intros pc jt e l pre rest A Le.
  - rewrite Nat.add_0_r. exists jt, e, l, pre, rest. auto.
  - destruct (nth_error L pc) as [[ops i]|] eqn:N; [|apply nth_error_None in N; lia].
    destruct (at_next _ _ _ _ _ _ _ _ _ _ _ A N) as [x [rest' [_ [-> [A' _]]]]].
    destruct (IH (S pc) _ _ _ _ _ A') as [jt' [e' [l' [pre' [rest'' [B Lr]]]]]]; [lia|].
    exists jt', e', l', pre', rest''. replace (pc + S n) with (S pc + n) by lia. split; auto. rewrite !app_length. lia.
Qed.

(** The label of a target leads to its place. *)
Lemma at_target : forall names L body pc jt e l pre rest ops i t, at_pc names L body pc jt e l pre rest -> nth_error L pc = Some (ops, i) ->
  In t (jumps i) ->
  exists jt' e' l' pre' rest', at_pc names L body t jt' e' l' pre' rest' /\ find_label t body = Some rest' /\
    forall x rest2, rest = head_of pc jt ops ++ x ++ rest2 -> emit_instr names pc e l i = Some x -> length rest' <= length rest2.
Proof.
  intros names L body pc jt e l pre rest ops i t A N It.
  destruct (at_next _ _ _ _ _ _ _ _ _ _ _ A N) as [x [rest2 [Ex [Er [A' Rg]]]]]. specialize (Rg t It).
  destruct (at_later _ _ _ (t - S pc) _ _ _ _ _ _ A') as [jt' [e' [l' [pre' [rest' [B Lr]]]]]]; [lia|].
  replace (S pc + (t - S pc)) with t in B by lia. exists jt', e', l', pre', rest'. split; auto. split.
  - destruct (nth_error L t) as [[ops' i']|] eqn:Nt; [|apply nth_error_None in Nt; lia].
    pose proof (a_jt _ _ _ _ _ _ _ _ _ B pc ops i t (proj1 Rg) N It) as Ij.
    destruct (at_next _ _ _ _ _ _ _ _ _ _ _ B Nt) as [x' [rest3 [_ [Er' _]]]].
    rewrite (a_body _ _ _ _ _ _ _ _ _ B), find_label_skip by apply (a_labels _ _ _ _ _ _ _ _ _ B).
    rewrite Er'. unfold head_of. replace (existsb (Nat.eqb t) jt') with true.
    + cbn [app find_label]. rewrite Nat.eqb_refl. reflexivity.
    + symmetry. apply existsb_exists. exists t. split; auto. apply Nat.eqb_refl.
  - intros x0 r0 E0 Ex0. rewrite Ex in Ex0. injection Ex0 as <-. rewrite Er in E0. apply app_inv_head in E0. apply app_inv_head in E0. subst r0. exact Lr.
Qed.

(** ** One function *)
Section sim.
  Variable prel : nat -> nat -> code -> cpay -> Prop.
  Variables (callM : cst -> cval -> list cval -> res code) (callG : gst -> gval -> list gval -> res cpay).
  Hypothesis Hcall : same_call prel callM callG.
  Variables (tu blk : nat) (ss xs : list cval) (ts ys : list gval).
  Hypothesis Hss : Forall2 (same_val prel) ss ts.
  Hypothesis Hxs : Forall2 (same_val prel) xs ys.
  Variables (names : list str) (L : list (list prof_op * instr)) (body : list stmt).
  Hypothesis Hsel : forall pc ops c n tgts d, nth_error L pc = Some (ops, ISelect c n tgts d) -> sorted_targets tgts.
  Hypothesis Hfun : forall pc ops d off c' scope f, nth_error L pc = Some (ops, IFunc d off c' scope) ->
    symbol names (code_block c') = Some f -> code_num_statics c' = length scope /\ prel (code_num_args c') (code_num_statics c') c' (CFn tu f).

  Definition same_reg (o : option cval) (c : cell) : Prop :=
    match o with Some v => match c with Val w => same_val prel v w | _ => False end | None => True end.
  Notation same_regs := (Forall2 same_reg).

  Lemma s_get : forall l e v x, same_regs l e -> get ss xs l v = Some x -> exists y, cget ts ys e v = Some y /\ same_val prel x y.
  Proof.
    intros l e [i|i|i] x R E; cbn [get cget] in *.
    - pose proof (F2_nth_error _ _ _ Hss i) as H. rewrite E in H. destruct (nth_error ts i) as [y|]; [eauto|contradiction].
    - pose proof (F2_nth_error _ _ _ Hxs i) as H. rewrite E in H. destruct (nth_error ys i) as [y|]; [eauto|contradiction].
    - pose proof (F2_nth_error _ _ _ R i) as H. destruct (nth_error l i) as [[v|]|]; try discriminate. injection E as ->.
      destruct (nth_error e i) as [[]|]; cbn in H; try contradiction. eauto.
  Qed.
  Lemma s_gets : forall l e vs zs, same_regs l e -> gets ss xs l vs = Some zs -> exists ws, cgets ts ys e vs = Some ws /\ Forall2 (same_val prel) zs ws /\ length zs = length vs.
  Proof.
    intros l e vs. induction vs as [|v vs IH]; intros zs R E; cbn [gets cgets] in *; [injection E as <-; eauto|].
    destruct (get ss xs l v) as [x|] eqn:G; [|discriminate]. destruct (gets ss xs l vs) as [zs'|]; [|discriminate]. injection E as <-.
    destruct (s_get _ _ _ _ R G) as [y [-> V]]. destruct (IH _ R eq_refl) as [ws [-> [F Le]]]. exists (y :: ws). cbn. auto.
  Qed.

  Lemma s_ops : forall ops s t, same_st prel s t -> same_st prel (do_ops blk ops s) (fold_left (c_op blk) ops t).
  Proof. induction ops as [|o ops IH]; intros s t R; [exact R|]. cbn. apply IH. unfold do_op, c_op. apply s_log. auto. Qed.

  Notation crunG := (crun callG tu blk ts ys body).
  Notation cstepG := (cstep callG tu blk ts ys body).

  Lemma crun_head : forall pc jt ops z K e t, length (head_of pc jt ops ++ z) <= K ->
    exists K', length z <= K' /\ crunG K (head_of pc jt ops ++ z) e t = crunG K' z e (fold_left (c_op blk) ops t).
  Proof.
    intros pc jt ops z K e t Le. unfold head_of in *.
    assert (P : forall K, length ((match ops with [] => [] | _ => [CProfile ops] end) ++ z) <= K ->
      exists K', length z <= K' /\ crunG K ((match ops with [] => [] | _ => [CProfile ops] end) ++ z) e t = crunG K' z e (fold_left (c_op blk) ops t)).
    { intros K1 Le1. destruct ops as [|o ops]; [exists K1; auto|]. cbn [app length] in *. destruct K1 as [|K1]; [lia|]. exists K1. split; [lia|]. reflexivity. }
    destruct (existsb (Nat.eqb pc) jt); [|apply P; auto]. cbn [app length] in *. destruct K as [|K]; [lia|]. cbn [crun]. cbn [cstep]. apply P. lia.
  Qed.

  Definition cont (k : nat) (r : step_res) : res code := match r with Next pc l s => loop callM blk ss xs k L pc l s | Stop o s => (o, s) end.
  Definition conts (K : nat) (rest : list stmt) (r : GenModel.cres) : res cpay :=
    match r with
    | CNext e s => crunG K rest e s
    | CStop o s => (o, s)
    | CJump pc e s => match find_label pc body with Some r' => crunG K r' e s | None => (Crash, s) end
    end.

  Section next.
    Variable k : nat.
    Hypothesis IHk : forall pc l e s t K rest jt ei li pre, at_pc names L body pc jt ei li pre rest -> same_regs l (fl e) -> same_st prel s t ->
      length rest <= K -> same_res prel (loop callM blk ss xs k L pc l s) (crunG K rest e t).

    Lemma put_sim : forall pc dest x y l e s t tl rest K jt ei li pre, at_pc names L body (S pc) jt ei li pre rest ->
      same_regs l (fl e) -> same_val prel x y -> same_st prel s t ->
      Forall (fun z => z = CAbortIfNull dest \/ z = CAbortIfWrong dest) tl -> length (tl ++ rest) <= K ->
      same_res prel (cont k (put (S pc) dest x l s)) (conts K (tl ++ rest) (cput dest (Val y) e t)).
    Proof.
      intros pc dest x y l e s t tl rest K jt ei li pre A R V St F Le. unfold put, cput. rewrite <- (F2_len _ _ _ R).
      destruct (dest <? length l) eqn:Ld; [|left; reflexivity]. cbn [cont conts].
      assert (R' : same_regs (set_nth dest (Some x) l) (set_nth dest (Val y) (fl e))) by (apply F2_setnth; auto).
      assert (G : nth_error (set_nth dest (Val y) (fl e)) dest = Some (Val y)).
      { rewrite nth_error_set_nth, Nat.eqb_refl. rewrite <- (F2_len _ _ _ R), Ld. reflexivity. }
      set (e' := set_l (set_nth dest (Val y) (fl e)) e). change (set_nth dest (Val y) (fl e)) with (fl e') in G, R'.
      clearbody e'. revert K Le. induction F as [|z tl Hz F IH]; intros K Le.
      - eapply IHk; eauto.
      - cbn [app length] in Le. destruct K as [|K]; [lia|]. cbn [app crun]. destruct Hz as [->| ->]; cbn [cstep]; rewrite G; apply IH; lia.
    Qed.

    Lemma fail_sim : forall dest x l e s t tl rest K, same_regs l (fl e) -> same_st prel s t ->
      x = Null /\ tl = CAbortIfNull dest :: rest \/ x = Wrong /\ tl = CAbortIfNull dest :: CAbortIfWrong dest :: rest \/ x = Null /\ tl = CAbortIfNull dest :: rest ->
      length tl <= K ->
      same_res prel (cont k (fail dest l s)) (conts K tl (cput dest x e t)).
    Proof.
      intros dest x l e s t tl rest K R St H Le. unfold fail, cput. rewrite <- (F2_len _ _ _ R).
      destruct (dest <? length l) eqn:Ld; [|left; reflexivity]. cbn [cont conts].
      assert (G : nth_error (set_nth dest x (fl e)) dest = Some x).
      { rewrite nth_error_set_nth, Nat.eqb_refl. rewrite <- (F2_len _ _ _ R), Ld. reflexivity. }
      destruct H as [[-> ->]|[[-> ->]|[-> ->]]]; cbn [length] in Le; destruct K as [|K]; try lia; cbn [crun cstep fl set_l]; rewrite G.
      - right. split; [constructor|auto].
      - destruct K as [|K]; [lia|]. cbn [crun cstep fl set_l]. rewrite G. right. split; [constructor|auto].
      - right. split; [constructor|auto].
    Qed.

    Ltac crash := left; reflexivity.
    Ltac stop := right; split; [constructor; auto|auto].

    Lemma exec_sim : forall pc ops i l e s t x rest jt ei li pre K, nth_error L pc = Some (ops, i) ->
      at_pc names L body pc jt ei li pre (head_of pc jt ops ++ x ++ rest) -> emit_instr names pc ei li i = Some x ->
      (exists jt' ei' li' pre', at_pc names L body (S pc) jt' ei' li' pre' rest) ->
      same_regs l (fl e) -> same_st prel s t -> length (x ++ rest) <= K ->
      same_res prel (cont k (exec callM blk ss xs i pc l s)) (crunG K (x ++ rest) e t).
    Proof.
      intros pc ops i l e s t x rest jt ei li pre K N A Ex [jt' [ei' [li' [pre' A']]]] R St Le.
      assert (Jump : forall q, In q (jumps i) -> length rest <= K -> forall K', length rest <= K' ->
        same_res prel (cont k (Next q l s)) (match find_label q body with Some r' => crunG K' r' e t | None => (Crash, t) end)).
      { intros q Iq _ K' LeK. destruct (at_target _ _ _ _ _ _ _ _ _ _ _ q A N Iq) as [jt2 [e2 [l2 [pre2 [rest2 [A2 [F2 Le2]]]]]]].
        specialize (Le2 x rest eq_refl Ex). rewrite F2. cbn [cont]. eapply IHk; eauto. lia. }
      destruct i; cbn [emit_instr] in Ex.
      - (* struct *) injection Ex as <-. cbn [app length] in *. destruct K as [|K]; [lia|]. cbn [exec crun cstep].
        destruct (gets ss xs l args) as [zs|] eqn:G; [|crash]. destruct (s_gets _ _ _ _ R G) as [ws [-> [F Lz]]].
        rewrite <- (F2_len _ _ _ F), Lz, Nat.eqb_refl.
        apply (put_sim pc dest _ _ l e s t [] rest K _ _ _ _ A' R); auto; [constructor; auto|cbn; lia].
      - (* union *) injection Ex as <-. cbn [app length] in *. destruct K as [|K]; [lia|]. cbn [exec crun cstep].
        destruct (get ss xs l arg) as [z|] eqn:G; [|crash]. destruct (s_get _ _ _ _ R G) as [w [-> V]].
        apply (put_sim pc dest _ _ l e s t [] rest K _ _ _ _ A' R); auto; [constructor; auto|cbn; lia].
      - (* access *) destruct is_struct; injection Ex as <-; cbn [app length] in *; (destruct K as [|K]; [lia|]); cbn [exec crun cstep];
        (destruct (get ss xs l obj) as [z|] eqn:G; [|crash]); destruct (s_get _ _ _ _ R G) as [w [-> V]];
        destruct (s_strict _ _ _ _ _ _ _ St V) as [a b Vab| |]; try crash.
        + destruct Vab as [fs gs Fg|tg a b Vab| | | |]; try crash.
          pose proof (F2_nth_error _ _ _ Fg tag) as H. destruct (nth_error fs tag) as [z1|]; [|crash]. destruct (nth_error gs tag) as [w1|]; [|contradiction].
          cbn [cput_val].
          apply (put_sim pc dest _ _ l e s t [CAbortIfNull dest] rest K _ _ _ _ A' R); auto. cbn; lia.
        + apply (fail_sim dest Null l e s t (CAbortIfNull dest :: rest) rest K R St); [auto|cbn; lia].
        + destruct Vab as [fs gs Fg|tg a b Vab| | | |]; try crash. destruct (tg =? tag).
          * apply (put_sim pc dest _ _ l e s t [CAbortIfNull dest; CAbortIfWrong dest] rest K _ _ _ _ A' R); auto. cbn; lia.
          * apply (fail_sim dest Wrong l e s t (CAbortIfNull dest :: CAbortIfWrong dest :: rest) rest K R St); [auto|cbn; lia].
        + apply (fail_sim dest Null l e s t (CAbortIfNull dest :: CAbortIfWrong dest :: rest) (CAbortIfWrong dest :: rest) K R St); [auto|cbn; lia].
      - (* select *) injection Ex as <-. cbn [app length] in *. destruct K as [|K]; [lia|]. cbn [exec crun cstep].
        destruct (get ss xs l condition) as [z|] eqn:G; [|crash]. destruct (s_get _ _ _ _ R G) as [w [-> V]].
        destruct (s_strict _ _ _ _ _ _ _ St V) as [a b Vab| |]; [|stop|crash].
        destruct Vab as [fs gs Fg|tg a b Vab| | | |]; try crash.
        destruct (select_target num_tags targets default tg) as [q|] eqn:Q; [|crash].
        rewrite (select_assoc _ _ _ _ _ (Hsel _ _ _ _ _ _ N) Q). apply Jump; [apply select_jumps|lia|lia].
      - (* goto *) injection Ex as <-. cbn [app length] in *. destruct K as [|K]; [lia|]. cbn [exec crun cstep]. apply Jump; [left; auto|lia|lia].
      - (* func *) destruct (symbol names (code_block c)) as [f|] eqn:Sy; [|discriminate]. destruct (Hfun _ _ _ _ _ _ _ N Sy) as [Ns Pr].
        rewrite Ns, Nat.leb_refl, firstn_all in Ex. injection Ex as <-. cbn [app length] in *. destruct K as [|[|[|K]]]; try lia. cbn [exec crun cstep].
        destruct (gets ss xs l scope) as [zs|] eqn:G; [|crash]. destruct (s_gets _ _ _ _ R G) as [ws [-> [F Lz]]].
        rewrite Ns, Lz, Nat.leb_refl, <- (F2_len _ _ _ F), Lz, Nat.eqb_refl. cbn [fl fv].
        assert (Se : static_exe ei body = Some (mk_exe (code_num_args c) (length scope) f)).
        { rewrite (a_body _ _ _ _ _ _ _ _ _ A), static_exe_skip by apply (a_exes _ _ _ _ _ _ _ _ _ A).
          unfold head_of. destruct (existsb (Nat.eqb pc) jt), ops; cbn [app static_exe]; rewrite Nat.eqb_refl; reflexivity. }
        rewrite Se. cbn [assoc]. rewrite Nat.eqb_refl. cbn [x_statics x_args x_run]. rewrite <- (F2_len _ _ _ F), Lz, Nat.leb_refl.
        rewrite <- Lz at 1. rewrite firstn_all. replace (length scope) with (length ws) by (rewrite <- (F2_len _ _ _ F); auto). rewrite firstn_all.
        apply (put_sim pc dest _ _ l (mk_frame (fl e) ((pc, ws) :: fv e) (ca e) (f0 e)) s t [] rest K _ _ _ _ A' R); auto; [|cbn; lia].
        constructor; auto. rewrite Lz, <- Ns. auto.
      - (* call *) injection Ex as <-. cbn [app length] in *. destruct K as [|[|K]]; try lia. cbn [exec crun cstep].
        destruct (get ss xs l func) as [z|] eqn:G; [|crash]. destruct (gets ss xs l args) as [zs|] eqn:Gs; [|crash].
        destruct (s_get _ _ _ _ R G) as [w [Gw V]]. destruct (s_gets _ _ _ _ R Gs) as [ws [-> [F Lz]]].
        rewrite <- (F2_len _ _ _ F), Lz, Nat.eqb_refl. cbn [fl ca]. rewrite Gw. cbn [assoc]. rewrite Nat.eqb_refl, <- (F2_len _ _ _ F), Lz, Nat.leb_refl.
        replace (length args) with (length ws) by (rewrite <- (F2_len _ _ _ F); auto). rewrite firstn_all.
        destruct (dest <? length l) eqn:Ld; [|crash].
        pose proof (Hcall _ _ _ _ _ _ St V F) as Hc. destruct (callM s z zs) as [o s1], (callG t w ws) as [o' t1].
        destruct Hc as [Hc|[Ho Hst]]; cbn [fst snd] in *; [subst o; crash|]. destruct Ho; try crash.
        + apply (put_sim pc dest _ _ l (mk_frame (fl e) (fv e) ((pc, ws) :: ca e) (f0 e)) s1 t1 [CAbortIfNull dest] rest K _ _ _ _ A' R); auto. cbn; lia.
        + replace (cont k (Stop Abort s1)) with (cont k (fail dest l s1)) by (unfold fail; rewrite Ld; reflexivity).
          apply (fail_sim dest Null l (mk_frame (fl e) (fv e) ((pc, ws) :: ca e) (f0 e)) s1 t1 (CAbortIfNull dest :: rest) rest K R Hst); [auto|cbn; lia].
        + stop.
      - (* tail call *) injection Ex as <-. cbn [app length] in *. destruct K as [|[|[|[|K]]]]; try lia. cbn [exec crun cstep].
        destruct (get ss xs l func) as [z|] eqn:G; [|crash]. destruct (s_get _ _ _ _ R G) as [w [Gw V]]. rewrite Gw.
        destruct (s_strict _ _ _ _ _ _ _ St V) as [a b Vab| |]; [|stop|crash].
        rewrite (s_num_args _ _ _ _ _ Vab). destruct (num_args_of b) as [na|]; [|crash]. cbn [f0 fl ca fv].
        destruct (gets ss xs l args) as [zs|] eqn:Gs; [|crash]. destruct (s_gets _ _ _ _ R Gs) as [ws [-> [F Lz]]].
        rewrite <- (F2_len _ _ _ F), Lz, Nat.eqb_refl. cbn [fl ca f0]. rewrite Gw. cbn [assoc]. rewrite Nat.eqb_refl, <- (F2_len _ _ _ F), Lz, Nat.leb_refl.
        replace (length args) with (length ws) by (rewrite <- (F2_len _ _ _ F); auto). rewrite firstn_all. stop.
      - (* copy *) injection Ex as <-. cbn [app length] in *. destruct K as [|K]; [lia|]. cbn [exec crun cstep].
        destruct (get ss xs l source) as [z|] eqn:G; [|crash]. destruct (s_get _ _ _ _ R G) as [w [-> V]].
        apply (put_sim pc dest _ _ l e s t [] rest K _ _ _ _ A' R); auto. cbn; lia.
      - (* ref *) injection Ex as <-. cbn [app length] in *. destruct K as [|K]; [lia|]. cbn [exec crun cstep].
        destruct (s_new_ref _ _ _ _ _ St) as [V S1]. destruct (new_ref s) as [r1 s1], (new_ref t) as [r2 t1]. cbn [fst snd] in *.
        apply (put_sim pc dest _ _ l e s1 t1 [] rest K _ _ _ _ A' R); auto. cbn; lia.
      - (* assign *) injection Ex as <-. cbn [app length] in *. destruct K as [|K]; [lia|]. cbn [exec crun cstep].
        destruct (get ss xs l (Local ref)) as [z|] eqn:G; [|crash]. destruct (s_get _ _ _ _ R G) as [w [-> V]].
        destruct (get ss xs l value) as [z2|] eqn:G2; [|crash]. destruct (s_get _ _ _ _ R G2) as [w2 [-> V2]].
        pose proof (s_assign _ _ _ _ _ _ _ _ _ St V V2) as H.
        destruct (assign_ref s z z2) as [[s1|]|], (assign_ref t w w2) as [[t1|]|]; try contradiction; [|stop|crash].
        cbn [cont]. eapply IHk; eauto. lia.
      - (* return *) injection Ex as <-. cbn [app length] in *. destruct K as [|K]; [lia|]. cbn [exec crun cstep].
        destruct (get ss xs l result) as [z|] eqn:G; [|crash]. destruct (s_get _ _ _ _ R G) as [w [-> V]]. stop.
      - (* type *) injection Ex as <-. cbn [app length] in *. destruct K as [|K]; [lia|]. cbn [exec crun cstep].
        apply (put_sim pc dest _ _ l e s t [] rest K _ _ _ _ A' R); auto; [constructor|cbn; lia].
      - (* list *) injection Ex as <-. cbn [app length] in *. destruct K as [|K]; [lia|]. cbn [exec crun cstep].
        destruct (gets ss xs l args) as [zs|] eqn:G; [|crash]. destruct (s_gets _ _ _ _ R G) as [ws [-> [F Lz]]].
        rewrite <- (F2_len _ _ _ F), Lz, Nat.eqb_refl.
        apply (put_sim pc dest _ _ l e s t [] rest K _ _ _ _ A' R); auto; [apply s_list; auto|cbn; lia].
      - (* literal *) injection Ex as <-. cbn [app length] in *. destruct K as [|[|K]]; try lia. cbn [exec crun cstep].
        assert (Se : static_lit li body = Some letters).
        { rewrite (a_body _ _ _ _ _ _ _ _ _ A), static_lit_skip by apply (a_lits _ _ _ _ _ _ _ _ _ A).
          unfold head_of. destruct (existsb (Nat.eqb pc) jt), ops; cbn [app static_lit]; rewrite Nat.eqb_refl; reflexivity. }
        rewrite Se, Nat.leb_refl, firstn_all.
        apply (put_sim pc dest _ _ l e s t [] rest K _ _ _ _ A' R); auto; [apply s_literal|cbn; lia].
      - (* nop *) injection Ex as <-. cbn [app] in *. cbn [exec cont]. eapply IHk; eauto.
    Qed.
  End next.

  Theorem loop_sim : forall k pc l e s t K rest jt ei li pre, at_pc names L body pc jt ei li pre rest -> same_regs l (fl e) -> same_st prel s t ->
    length rest <= K -> same_res prel (loop callM blk ss xs k L pc l s) (crunG K rest e t).
  Proof.
    induction k as [|k IHk]; intros pc l e s t K rest jt ei li pre A R St Le; [left; reflexivity|].
    cbn [loop]. destruct (nth_error L pc) as [[ops i]|] eqn:N; [|left; reflexivity].
    destruct (at_next _ _ _ _ _ _ _ _ _ _ _ A N) as [x [rest' [Ex [-> [A' _]]]]].
    destruct (crun_head pc jt ops (x ++ rest') K e t Le) as [K' [LeK ->]].
    apply (exec_sim k IHk pc ops i l e (do_ops blk ops s) (fold_left (c_op blk) ops t) x rest' jt ei li pre K'); auto; [eauto 6|].
    apply s_ops. auto.
  Qed.
End sim.
