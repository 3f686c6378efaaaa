(** * Profile blocks in compiled code (C22). *)
From Coq Require Import List Arith Lia Bool.
From Verif Require FuncProps CodeProps.
From Verif Require Import FuncModel CodeModel CompileModel CompileEval CompileStatic CompileRel CompileDyn CompileCalls CompileSlots.
Import ListNotations.

(** ** What is to be shown *)

(** The instructions control can go to after instruction [pc] (lib/interpret.c:95-304). *)
Definition succs (pc : nat) (i : instr) : list nat :=
  match i with
  | ISelect _ _ targets default => default :: map snd targets
  | IGoto target => [target]
  | IReturn _ | ITail _ _ => []
  | _ => [S pc]
  end.

(** Instructions that end the function: by then it must have left all blocks it entered. *)
Definition exits (i : instr) : Prop := match i with IReturn _ | ITail _ _ => True | _ => False end.

(** A profile operation on the blocks of the current call, innermost first; the last one is
    that of the call itself, which belongs to FbleCall: it can be replaced but not left. *)
Definition op_stack (base : nat) (op : prof_op) (st : list nat) : option (list nat) :=
  match op, st with
  | OEnter a, _ :: _ => Some (base + a :: st)
  | OReplace a, _ :: r => Some (base + a :: r)
  | OExit, _ :: b :: r => Some (b :: r)
  | OSample _, _ => Some st
  | _, _ => None
  end.
Fixpoint ops_stack (base : nat) (ops : list prof_op) (st : list nat) : option (list nat) :=
  match ops with
  | [] => Some st
  | o :: r => match op_stack base o st with Some st' => ops_stack base r st' | None => None end
  end.

(** Control can come to [pc] with the blocks [st], along some path from the start. *)
Inductive visits (c : code) : nat -> list nat -> Prop :=
| visits_start : visits c 0 [code_block c]
| visits_next : forall pc st ops i st' q, visits c pc st -> nth_error (code_instrs c) pc = Some (ops, i) ->
    ops_stack (code_block c) ops st = Some st' -> In q (succs pc i) -> visits c q st'.

(** On every path: there is an instruction, its operations leave none but blocks of the
    function, they enter only blocks of the module (which has [nblocks]), the blocks are
    the same whichever path was taken, and when the function ends it is back to one. *)
Definition balanced (nblocks : nat) (c : code) : Prop :=
  (forall pc st, visits c pc st -> exists ops i st', nth_error (code_instrs c) pc = Some (ops, i) /\
     ops_stack (code_block c) ops st = Some st' /\ (forall b, In b st' -> b < nblocks) /\
     (exits i -> length st' = 1)) /\
  (forall pc st st', visits c pc st -> visits c pc st' -> st = st').

(** The same for the code of all function values it makes, whose blocks are those they are
    compiled for. *)
Inductive all_balanced (nblocks : nat) : code -> Prop :=
| AllBalanced : forall c, balanced nblocks c ->
    (forall ops d off c' sc, In (ops, IFunc d off c' sc) (code_instrs c) ->
       code_block c' = code_block c + off /\ all_balanced nblocks c') ->
    all_balanced nblocks c.

(** ** The invariant of the compiler *)
Definition op_in (lo n : nat) (o : prof_op) : Prop := match o with OEnter a | OReplace a => lo + a < n | _ => True end.
Definition item (lo n : nat) (p : list prof_op * instr) : Prop :=
  Forall (op_in lo n) (fst p) /\
  match snd p with IFunc _ off c' _ => code_block c' = lo + off /\ all_balanced n c' | _ => True end.

Definition edges (H : list nat) (s : cs) (f : nat -> list nat) (n : nat) : Prop :=
  forall pc ops i, nth_error (instrs s) pc = Some (ops, i) -> exists st', ops_stack (block s) ops (f pc) = Some st' /\
    (~ In pc H -> (forall q, In q (succs pc i) -> q < n /\ f q = st') /\ (exits i -> length st' = 1)).

Definition bnd (s : cs) : nat := match active s with None => length (instrs s) | Some a => a end.

Record clean (s : cs) : Prop := {
  cl_block : block s < bnext s;
  cl_items : Forall (item (block s) (bnext s)) (instrs s);
  cl_pend : Forall (op_in (block s) (bnext s)) (pending s) }.

(** Code to which an instruction can be appended, with blocks [cur] before it; [f] are the
    blocks before each instruction, [H] the instructions still to be completed. *)
Record OK (H : list nat) (s : cs) (f : nat -> list nat) (cur : list nat) : Prop := {
  ok_clean : clean s;
  ok_edges : edges H s f (S (length (instrs s)));
  ok_cur : cur <> [];
  ok_holes : forall h, In h H -> h < bnd s;
  ok_act : match active s with
    | None => ops_stack (block s) (pending s) (f (length (instrs s))) = Some cur
    | Some a => a < length (instrs s) /\ pending s = [] /\
      (forall pc, a < pc -> f pc = cur) /\
      (forall pc ops i, nth_error (instrs s) pc = Some (ops, i) -> a <= pc -> succs pc i = [S pc] /\ ~ exits i /\ (a < pc -> ops = [])) /\
      (forall pc ops i q, nth_error (instrs s) pc = Some (ops, i) -> pc < a -> ~ In pc H -> In q (succs pc i) -> q <= a)
    end }.

(** Code after whose last instruction control does not come. *)
Record Done (H : list nat) (s : cs) (f : nat -> list nat) : Prop := {
  dn_clean : clean s;
  dn_pend : pending s = [];
  dn_bnd : bnd s <= length (instrs s);
  dn_holes : forall h, In h H -> h < length (instrs s);
  dn_edges : edges H s f (length (instrs s)) }.

Record keep (n : nat) (s : cs) (f : nat -> list nat) (s' : cs) (f' : nat -> list nat) : Prop := {
  kp_block : block s' = block s;
  kp_bnext : bnext s <= bnext s';
  kp_len : length (instrs s) <= length (instrs s');
  kp_code : forall pc, pc < n -> nth_error (instrs s') pc = nth_error (instrs s) pc;
  kp_f : forall pc, pc < n -> f' pc = f pc }.

Definition step (s : cs) (f : nat -> list nat) (s' : cs) (f' : nat -> list nat) : Prop :=
  keep (bnd s) s f s' f' /\ f' (bnd s) = f (bnd s) /\ bnd s <= bnd s'.

Lemma keep_refl : forall n s f, keep n s f s f.
Proof. intros. constructor; auto. Qed.
Lemma keep_le : forall n m s f s' f', n <= m -> keep m s f s' f' -> keep n s f s' f'.
Proof. intros n m s f s' f' L [A B C D E]. constructor; auto; intros pc P; [apply D|apply E]; lia. Qed.
Lemma keep_trans : forall n m s f s1 f1 s2 f2, n <= m -> keep n s f s1 f1 -> keep m s1 f1 s2 f2 -> keep n s f s2 f2.
Proof.
  intros n m s f s1 f1 s2 f2 L [A B C D E] [A' B' C' D' E']. constructor; try congruence; try lia.
  - intros pc P. rewrite D' by lia. auto.
  - intros pc P. rewrite E' by lia. auto.
Qed.
Lemma step_refl : forall s f, step s f s f.
Proof. intros. split; [apply keep_refl|]. split; auto. Qed.
Lemma step_trans : forall s f s1 f1 s2 f2, step s f s1 f1 -> step s1 f1 s2 f2 -> step s f s2 f2.
Proof.
  intros s f s1 f1 s2 f2 [A [B C]] [D [E G]]. split; [eapply keep_trans; eauto|]. split; [|lia].
  destruct (Nat.eq_dec (bnd s) (bnd s1)) as [Q|Q]; [rewrite Q in *; congruence|].
  rewrite (kp_f _ _ _ _ _ D) by lia. auto.
Qed.

(** ** Operations *)
Lemma op_in_le : forall lo n m o, n <= m -> op_in lo n o -> op_in lo m o.
Proof. intros lo n m [a|a| |t] L O; cbn in *; auto; lia. Qed.
Lemma ops_in_le : forall lo n m l, n <= m -> Forall (op_in lo n) l -> Forall (op_in lo m) l.
Proof. intros lo n m l L F. eapply Forall_impl; [|exact F]. intros o. apply op_in_le. auto. Qed.

Lemma balanced_le : forall n m c, n <= m -> balanced n c -> balanced m c.
Proof.
  intros n m c L [A B]. split; auto. intros pc st V. destruct (A _ _ V) as [ops [i [st' [E1 [E2 [E3 E4]]]]]].
  exists ops, i, st'. repeat split; auto. intros b I. specialize (E3 b I). lia.
Qed.
Lemma all_balanced_le : forall n m, n <= m -> forall c, all_balanced n c -> all_balanced m c.
Proof.
  intros n m L. fix F 2. intros c [c' B N]. constructor; [eapply balanced_le; eauto|].
  intros ops d off c'' sc I. destruct (N ops d off c'' sc I) as [X Y]. split; auto.
Qed.
Lemma item_le : forall lo n m p, n <= m -> item lo n p -> item lo m p.
Proof.
  intros lo n m [ops i] L [A B]. split; [eapply ops_in_le; eauto|]. cbn in *. destruct i; auto.
  destruct B as [B1 B2]. split; auto. eapply all_balanced_le; eauto.
Qed.

Lemma ops_stack_app : forall base a b st, ops_stack base (a ++ b) st =
  match ops_stack base a st with Some st' => ops_stack base b st' | None => None end.
Proof. induction a as [|o a IH]; intros b st; cbn; auto. destruct (op_stack base o st); auto. Qed.

Lemma ops_stack_add : forall base op l st, ops_stack base (add_op op l) st =
  match ops_stack base l st with Some st' => op_stack base op st' | None => None end.
Proof.
  intros base op. induction l as [|o l IH]; intros st.
  - cbn [add_op ops_stack]. destruct (op_stack base op st); auto.
  - destruct l as [|o2 l].
    + cbn [add_op]. destruct o; cbn [ops_stack]; try (destruct (op_stack base _ st); auto; fail);
        try (destruct (op_stack base _ st); auto; destruct (op_stack base op _); auto; fail).
      destruct op; cbn [ops_stack op_stack]; auto;
        match goal with |- match ?x with _ => _ end = _ => destruct x; auto end.
    + assert (E : add_op op (o :: o2 :: l) = o :: add_op op (o2 :: l)) by (destruct o; reflexivity).
      rewrite E. cbn [ops_stack]. destruct (op_stack base o st) as [st'|]; auto. apply (IH st').
Qed.

Lemma add_op_in : forall lo n op l, op_in lo n op -> Forall (op_in lo n) l -> Forall (op_in lo n) (add_op op l).
Proof.
  intros lo n op. induction l as [|o l IH]; intros O F; [constructor; auto|].
  inversion F as [|? ? Fo Fl]; subst. destruct l as [|o2 l].
  - cbn [add_op]. destruct o; try (repeat constructor; auto; fail). destruct op; repeat constructor; auto.
  - assert (E : add_op op (o :: o2 :: l) = o :: add_op op (o2 :: l)) by (destruct o; reflexivity).
    rewrite E. constructor; auto.
Qed.

Lemma add_op_nonempty : forall op l, add_op op l <> [].
Proof. intros op [|o l]; [discriminate|]. destruct o, l; try discriminate. destruct op; discriminate. Qed.

(** ** States with the same code *)
Definition same_code (s s' : cs) : Prop :=
  instrs s' = instrs s /\ pending s' = pending s /\ active s' = active s /\ block s' = block s /\ bnext s' = bnext s.

Lemma same_refl : forall s, same_code s s.
Proof. repeat split. Qed.
Lemma same_trans : forall a b c, same_code a b -> same_code b c -> same_code a c.
Proof. intros a b c (A1 & A2 & A3 & A4 & A5) (B1 & B2 & B3 & B4 & B5). repeat split; congruence. Qed.

Lemma same_step : forall s s' f, same_code s s' -> step s f s' f.
Proof.
  intros s s' f (A1 & A2 & A3 & A4 & A5). unfold step, bnd. rewrite A1, A3. split; [|split; auto].
  constructor; try rewrite A1; try rewrite A5; auto.
Qed.
Lemma same_OK : forall H s s' f cur, same_code s s' -> OK H s f cur -> OK H s' f cur.
Proof.
  intros H s s' f cur (A1 & A2 & A3 & A4 & A5) [[B1 B2 B3] C D F E]. constructor; [constructor| | | |].
  - rewrite A4, A5. auto.
  - rewrite A1, A4, A5. auto.
  - rewrite A2, A4, A5. auto.
  - unfold edges in *. rewrite A1, A4. auto.
  - auto.
  - unfold bnd in *. rewrite A3, A1. auto.
  - rewrite A3, A1, A2, A4. auto.
Qed.
Lemma same_Done : forall H s s' f, same_code s s' -> Done H s f -> Done H s' f.
Proof.
  intros H s s' f (A1 & A2 & A3 & A4 & A5) [[B1 B2 B3] C D F E]. constructor; [constructor| | | |].
  - rewrite A4, A5. auto.
  - rewrite A1, A4, A5. auto.
  - rewrite A2, A4, A5. auto.
  - congruence.
  - unfold bnd in *. rewrite A3, A1. auto.
  - rewrite A1. auto.
  - unfold edges in *. rewrite A1, A4. auto.
Qed.

Lemma new_local_same : forall s d s', new_local s = (d, s') -> same_code s s'.
Proof. intros s d s' N. unfold new_local in N. injection N as _ <-. repeat split. Qed.
Lemma retain_same : forall v s, same_code s (retain v s).
Proof. intros [i|i|i] s; repeat split. Qed.
Lemma release_same : forall v s s', release v s = Some s' -> same_code s s'.
Proof.
  intros v s s' R. unfold release in R. destruct v as [[i|i|i]|].
  - destruct (nth_error (srefs s) i) as [[|[|n]]|]; try discriminate. injection R as <-. repeat split.
  - destruct (nth_error (arefs s) i) as [[|[|n]]|]; try discriminate. injection R as <-. repeat split.
  - destruct (nth_error (slots s) i) as [[|n]|]; try discriminate. injection R as <-. repeat split.
  - injection R as <-. apply same_refl.
Qed.
Lemma releases_same : forall vs s s', releases vs s = Some s' -> same_code s s'.
Proof.
  induction vs as [|v vs IH]; intros s s' R; cbn [releases] in R; [injection R as <-; apply same_refl|].
  destruct (release (Some v) s) as [s1|] eqn:E; [|discriminate]. eapply same_trans; [eapply release_same; eauto|eauto].
Qed.
Lemma pop_var_same : forall s s', pop_var s = Some s' -> same_code s s'.
Proof. intros s s' P. unfold pop_var in P. destruct (rev (vars s)); [discriminate|]. apply release_same in P. exact P. Qed.
Lemma pop_vars_same : forall n s s', pop_vars n s = Some s' -> same_code s s'.
Proof.
  induction n as [|n IH]; intros s s' P; cbn [pop_vars] in P; [injection P as <-; apply same_refl|].
  destruct (pop_var s) as [s1|] eqn:E; [|discriminate]. eapply same_trans; [eapply pop_var_same; eauto|eauto].
Qed.
Lemma set_var_same : forall i v s s', set_var i v s = Some s' -> same_code s s'.
Proof.
  intros i v s s' P. unfold set_var in P. destruct (nth_error (vars s) i) as [old|]; [|discriminate].
  destruct (release old s) as [s1|] eqn:E; [|discriminate]. injection P as <-. apply release_same in E. exact E.
Qed.

(** ** Appending operations and instructions *)
Lemma nth_set : forall {A} n m (x : A) l, n < length l -> nth_error (set_nth n x l) m = if m =? n then Some x else nth_error l m.
Proof.
  intros A n m x l L. rewrite nth_error_set_nth. apply Nat.ltb_lt in L. rewrite L, andb_true_r. reflexivity.
Qed.

Lemma op_nonempty : forall base op cur cur', cur <> [] -> op_stack base op cur = Some cur' -> cur' <> [].
Proof.
  intros base op cur cur' Nc Op. destruct cur as [|x [|y cur]]; [congruence| |]; destruct op; cbn in Op; try discriminate;
    injection Op as Op; rewrite <- Op; discriminate.
Qed.

Lemma append_op_OK : forall H s f cur op cur', OK H s f cur -> op_stack (block s) op cur = Some cur' -> op_in (block s) (bnext s) op ->
  exists f', step s f (append_op op s) f' /\ OK H (append_op op s) f' cur'.
Proof.
  intros H s f cur op cur' [[Cb Ci Cp] Ed Nc Hs Ac] Op In'.
  pose proof (op_nonempty _ _ _ _ Nc Op) as Nc'. unfold bnd in Hs.
  unfold append_op. destruct (active s) as [a|] eqn:Ea.
  - destruct Ac as (La & Pe & Fc & Aft & Bef).
    destruct (nth_error (instrs s) a) as [[ops i]|] eqn:En; [|apply nth_error_None in En; lia].
    exists (fun pc => if pc <=? a then f pc else cur').
    assert (Len : length (set_nth a (add_op op ops, i) (instrs s)) = length (instrs s)) by apply set_nth_length.
    assert (Post : ops_stack (block s) ops (f a) = Some cur).
    { destruct (Ed a ops i En) as [st' [E1 E2]]. destruct (Aft a ops i En (le_n _)) as [Su [Ne _]].
      destruct E2 as [Q _]; [intros I; specialize (Hs a I); lia|].
      destruct (Q (S a)) as [_ Q2]; [rewrite Su; left; auto|]. rewrite (Fc (S a)) in Q2 by lia. congruence. }
    split; [|constructor; [constructor| | | |]].
    + unfold step, bnd. cbn [with_code active instrs]. rewrite Ea. split; [|split; [rewrite Nat.leb_refl; auto|auto]].
      constructor; cbn [with_code instrs block bnext]; auto; [rewrite Len; auto| |].
      * intros pc P. rewrite nth_set by lia. destruct (pc =? a) eqn:E; [apply Nat.eqb_eq in E; lia|auto].
      * intros pc P. assert (X : pc <=? a = true) by (apply Nat.leb_le; lia). rewrite X. auto.
    + exact Cb.
    + cbn [with_code instrs block bnext]. apply Forall_set_nth; auto.
      rewrite Forall_forall in Ci. destruct (Ci _ (nth_error_In _ _ En)) as [I1 I2]. split; auto. cbn [fst]. apply add_op_in; auto.
    + exact Cp.
    + intros pc ops' i' E. cbn [with_code instrs block] in *. rewrite Len. rewrite nth_set in E by lia.
      destruct (pc =? a) eqn:Q.
      * apply Nat.eqb_eq in Q. subst pc. injection E as <- <-. rewrite Nat.leb_refl. exists cur'.
        rewrite ops_stack_add, Post. split; auto. intros _. destruct (Aft a ops i En (le_n _)) as [Su [Ne _]]. split; [|contradiction].
        intros q I. rewrite Su in I. destruct I as [<-|[]]. split; [lia|]. assert (X : S a <=? a = false) by (apply Nat.leb_gt; lia). rewrite X. auto.
      * apply Nat.eqb_neq in Q. destruct (Ed _ _ _ E) as [st' [E1 E2]]. destruct (Nat.lt_ge_cases pc a) as [L|L].
        -- assert (X : pc <=? a = true) by (apply Nat.leb_le; lia). rewrite X. exists st'. split; auto. intros NH. destruct (E2 NH) as [E3 E4].
           split; auto. intros q Iq. destruct (E3 q Iq) as [E5 E6]. split; auto. pose proof (Bef _ _ _ _ E L NH Iq) as Bq.
           assert (Y : q <=? a = true) by (apply Nat.leb_le; lia). rewrite Y. auto.
        -- assert (X : pc <=? a = false) by (apply Nat.leb_gt; lia). rewrite X. destruct (Aft _ _ _ E L) as [Su [Ne Em]].
           rewrite Em by lia. exists cur'. split; auto. intros _. split; [|contradiction].
           intros q Iq. rewrite Su in Iq. destruct Iq as [<-|[]]. split; [apply Nat.lt_succ_r; apply nth_error_Some; congruence|].
           assert (Y : S pc <=? a = false) by (apply Nat.leb_gt; lia). rewrite Y. auto.
    + exact Nc'.
    + intros h Ih. unfold bnd. cbn [with_code active]. auto.
    + cbn [with_code active instrs pending block]. rewrite Len. split; auto. split; auto. split; [|split].
      * intros pc P. assert (X : pc <=? a = false) by (apply Nat.leb_gt; lia). rewrite X. auto.
      * intros pc ops' i' E P. rewrite nth_set in E by lia. destruct (pc =? a) eqn:Q.
        -- apply Nat.eqb_eq in Q. subst pc. injection E as <- <-. destruct (Aft a ops i En (le_n _)) as [Su [Ne _]]. split; auto. split; auto. lia.
        -- eapply Aft; eauto.
      * intros pc ops' i' q E P NH Iq. rewrite nth_set in E by lia. destruct (pc =? a) eqn:Q; [apply Nat.eqb_eq in Q; lia|]. eapply Bef; eauto.
  - exists f. split; [|constructor; [constructor| | | |]]; cbn [with_code active instrs pending block bnext]; auto.
    + unfold step, bnd. cbn [with_code active instrs]. rewrite Ea. split; [|split; auto]. constructor; auto.
    + apply add_op_in; auto.
    + rewrite ops_stack_add, Ac. auto.
Qed.

Lemma append_op_same : forall op s, block (append_op op s) = block s /\ bnext (append_op op s) = bnext s /\
  length (instrs (append_op op s)) = length (instrs s) /\ active (append_op op s) = active s /\
  (active s = None -> pending (append_op op s) <> []).
Proof.
  intros op s. unfold append_op. destruct (active s) as [a|] eqn:E.
  - destruct (nth_error (instrs s) a) as [[ops i]|] eqn:En; cbn [with_code block bnext instrs active pending].
    + rewrite set_nth_length. repeat split; auto; discriminate.
    + rewrite E. repeat split; auto; discriminate.
  - cbn [with_code block bnext instrs active pending]. repeat split; auto. intros _. apply add_op_nonempty.
Qed.

(** lib/compile.c:613-630 without the sample. *)
Definition push_instr (i : instr) (s : cs) : cs :=
  match pending s with
  | [] => with_code (instrs s ++ [([], i)]) [] (active s) s
  | ops => with_code (instrs s ++ [(ops, i)]) [] (Some (length (instrs s))) s
  end.
Lemma append_instr_push : forall i s, append_instr i s = push_instr i (append_op (OSample 1) s).
Proof. reflexivity. Qed.

Definition fresh (s : cs) : Prop := pending s = [] -> active s <> None.

Lemma nth_snoc : forall {A} (l : list A) x pc y, nth_error (l ++ [x]) pc = Some y ->
  (pc < length l /\ nth_error l pc = Some y) \/ (pc = length l /\ y = x).
Proof.
  intros A l x pc y E. destruct (Nat.lt_trichotomy pc (length l)) as [L|[L|L]].
  - left. rewrite nth_error_app1 in E by auto. auto.
  - right. subst pc. rewrite nth_error_app2, Nat.sub_diag in E by auto. cbn in E. split; congruence.
  - rewrite nth_error_app2 in E by lia. destruct (pc - length l) as [|[|n]] eqn:Q; try lia; cbn in E; discriminate.
Qed.

(** The blocks before each instruction after one more. *)
Definition more (s : cs) (f : nat -> list nat) (cur : list nat) : nat -> list nat :=
  match active s with Some _ => f | None => fun pc => if pc <=? length (instrs s) then f pc else cur end.

Record pushed (H : list nat) (s : cs) (cur : list nat) (i : instr) (s' : cs) (f' : nat -> list nat) : Prop := {
  pu_clean : clean s';
  pu_len : length (instrs s') = S (length (instrs s));
  pu_pend : pending s' = [];
  pu_act : active s' = Some (bnd s);
  pu_holes : forall h, In h H -> h < bnd s;
  pu_bnd : bnd s <= length (instrs s);
  pu_block : block s' = block s;
  pu_cur : forall pc, bnd s < pc -> f' pc = cur;
  pu_old : forall pc ops j, nth_error (instrs s') pc = Some (ops, j) -> pc < length (instrs s) ->
     (exists st', ops_stack (block s) ops (f' pc) = Some st' /\
       (~ In pc H -> (forall q, In q (succs pc j) -> q <= length (instrs s) /\ f' q = st') /\ (exits j -> length st' = 1))) /\
     (bnd s <= pc -> succs pc j = [S pc] /\ ~ exits j /\ (bnd s < pc -> ops = [])) /\
     (pc < bnd s -> ~ In pc H -> forall q, In q (succs pc j) -> q <= bnd s);
  pu_new : exists ops, nth_error (instrs s') (length (instrs s)) = Some (ops, i) /\
     ops_stack (block s) ops (f' (length (instrs s))) = Some cur /\ (bnd s < length (instrs s) -> ops = []);
  pu_only : forall pc ops j, nth_error (instrs s') pc = Some (ops, j) -> pc < length (instrs s) \/ (pc = length (instrs s) /\ j = i) }.

Lemma push_pushed : forall H s f cur i, OK H s f cur -> fresh s -> item (block s) (bnext s) ([], i) ->
  pushed H s cur i (push_instr i s) (more s f cur) /\ step s f (push_instr i s) (more s f cur).
Proof.
  intros H s f cur i [[Cb Ci Cp] Ed Nc Hs Ac] Fr [_ It]. cbn [snd] in It. unfold push_instr, more, fresh in *.
  destruct (active s) as [a|] eqn:Ea.
  - destruct Ac as (La & Pe & Fc & Aft & Bef). rewrite Pe.
    assert (Bn : bnd s = a) by (unfold bnd; rewrite Ea; auto).
    split.
    + constructor; cbn [with_code instrs pending active block bnext]; rewrite ?Bn; auto; try lia.
      * constructor; cbn [with_code instrs pending active block bnext]; auto. apply Forall_app. split; auto. repeat constructor; auto.
      * rewrite app_length. cbn. lia.
      * rewrite Bn in Hs. auto.
      * intros pc ops j E L. rewrite nth_error_app1 in E by auto. split; [|split; [intros; eapply Aft; eauto|intros; eapply Bef; eauto]].
        destruct (Ed _ _ _ E) as [st' [E1 E2]]. exists st'. split; auto. intros NH. destruct (E2 NH) as [E3 E4]. split; auto.
        intros q Iq. destruct (E3 q Iq) as [E5 E6]. split; auto. lia.
      * exists []. rewrite nth_error_app2, Nat.sub_diag by auto. split; auto. split; auto. cbn. f_equal. apply Fc. auto.
      * intros pc ops j E. apply nth_snoc in E. destruct E as [[L _]|[L E]]; auto. right. split; auto. congruence.
    + unfold step. rewrite Bn. unfold bnd. cbn [with_code active]. split; [|split; auto].
      constructor; cbn [with_code instrs block bnext]; auto; [rewrite app_length; lia|].
      intros pc P. rewrite nth_error_app1 by lia. auto.
  - assert (Bn : bnd s = length (instrs s)) by (unfold bnd; rewrite Ea; auto).
    destruct (pending s) as [|o ops] eqn:Pe; [specialize (Fr eq_refl); congruence|].
    assert (Up : forall n, n <= length (instrs s) -> (if n <=? length (instrs s) then f n else cur) = f n).
    { intros n L. apply Nat.leb_le in L. rewrite L. auto. }
    split.
    + constructor; cbn [with_code instrs pending active block bnext]; rewrite ?Bn; auto; try lia.
      * constructor; cbn [with_code instrs pending active block bnext]; auto. apply Forall_app. split; auto. constructor; [|constructor]. split; auto.
      * rewrite app_length. cbn. lia.
      * rewrite Bn in Hs. auto.
      * intros pc L. assert (X : pc <=? length (instrs s) = false) by (apply Nat.leb_gt; lia). rewrite X. auto.
      * intros pc ops' j E L. rewrite nth_error_app1 in E by auto. destruct (Ed _ _ _ E) as [st' [E1 E2]]. split; [|split; [lia|]].
        -- rewrite Up by lia. exists st'. split; auto. intros NH. destruct (E2 NH) as [E3 E4]. split; auto.
           intros q Iq. destruct (E3 q Iq) as [E5 E6]. rewrite Up by lia. split; auto. lia.
        -- intros _ NH q Iq. destruct (E2 NH) as [E3 _]. destruct (E3 q Iq). lia.
      * exists (o :: ops). rewrite nth_error_app2, Nat.sub_diag by auto. rewrite Up by lia. split; auto. split; auto. lia.
      * intros pc ops' j E. apply nth_snoc in E. destruct E as [[L _]|[L E]]; auto. right. split; auto. congruence.
    + unfold step. rewrite Bn. unfold bnd. cbn [with_code active]. split; [|split; auto].
      constructor; cbn [with_code instrs block bnext]; auto; [rewrite app_length; lia| |].
      * intros pc P. rewrite nth_error_app1 by lia. auto.
      * intros pc P. apply Up. lia.
Qed.

Lemma OK_cur : forall H s f cur, OK H s f cur -> op_stack (block s) (OSample 1) cur = Some cur.
Proof. reflexivity. Qed.

Lemma append_pushed : forall H s f cur i, OK H s f cur -> item (block s) (bnext s) ([], i) ->
  exists f' s1, pushed H s1 cur i (append_instr i s) f' /\ step s f (append_instr i s) f' /\
    length (instrs s1) = length (instrs s) /\ bnd s1 = bnd s /\ block s1 = block s.
Proof.
  intros H s f cur i O It. destruct (append_op_OK _ _ _ _ (OSample 1) cur O eq_refl I) as [f1 [St O1]].
  destruct (append_op_same (OSample 1) s) as [B1 [B2 [B3 [B4 B5]]]].
  assert (Fr : fresh (append_op (OSample 1) s)) by (intros P; rewrite B4; intros A; apply (B5 A P)).
  rewrite append_instr_push. destruct (push_pushed H (append_op (OSample 1) s) f1 cur i O1 Fr) as [P S2]; [rewrite B1, B2; auto|].
  exists (more (append_op (OSample 1) s) f1 cur), (append_op (OSample 1) s). split; auto. split; [eapply step_trans; eauto|].
  unfold bnd. rewrite B3, B4. auto.
Qed.

(** An instruction followed by the next one. *)
Lemma append_plain : forall H s f cur i, OK H s f cur -> item (block s) (bnext s) ([], i) ->
  (forall pc, succs pc i = [S pc]) -> ~ exits i ->
  exists f', step s f (append_instr i s) f' /\ OK H (append_instr i s) f' cur.
Proof.
  intros H s f cur i O It Su Ne. destruct (append_pushed _ _ _ _ _ O It) as [f' [s1 [P [St [L1 [B1 K1]]]]]].
  exists f'. split; auto. destruct P as [Pc Pl Pp Pa Ph Pb Pk Pcur Po Pn Pw]. constructor; auto.
  - rewrite Pl. intros pc ops j E. destruct (Pw _ _ _ E) as [L|[-> ->]].
    + destruct (Po _ _ _ E L) as [[st' [E1 E2]] _]. rewrite Pk. exists st'. split; auto. intros NH. destruct (E2 NH) as [E3 E4]. split; auto.
      intros q Iq. destruct (E3 q Iq). split; auto. lia.
    + destruct Pn as [ops' [E' [E1 E2]]]. rewrite E' in E. injection E as <-. rewrite Pk. exists cur. split; auto. intros _. split; [|contradiction].
      intros q Iq. rewrite Su in Iq. destruct Iq as [<-|[]]. split; [lia|]. apply Pcur. lia.
  - exact (ok_cur _ _ _ _ O).
  - unfold bnd. rewrite Pa. auto.
  - rewrite Pa, Pl. split; [lia|]. split; auto. split; auto. split.
    + intros pc ops j E L. destruct (Pw _ _ _ E) as [L'|[-> ->]]; [apply (Po _ _ _ E L'); auto|].
      split; auto. split; auto. intros X. destruct Pn as [ops' [E' [E1 E2]]]. rewrite E' in E. injection E as <-. auto.
    + intros pc ops j q E L NH Iq. destruct (Pw _ _ _ E) as [L'|[-> ->]]; [|lia]. eapply (Po _ _ _ E L'); eauto.
Qed.

(** One that ends the function. *)
Lemma append_end : forall H s f cur i, OK H s f cur -> item (block s) (bnext s) ([], i) ->
  (forall pc, succs pc i = []) -> length cur = 1 ->
  exists f', step s f (append_instr i s) f' /\ Done H (append_instr i s) f'.
Proof.
  intros H s f cur i O It Su Ne. destruct (append_pushed _ _ _ _ _ O It) as [f' [s1 [P [St [L1 [B1 K1]]]]]].
  exists f'. split; auto. destruct P as [Pc Pl Pp Pa Ph Pb Pk Pcur Po Pn Pw]. constructor; auto.
  - unfold bnd in *. rewrite Pa, Pl. lia.
  - intros h Ih. specialize (Ph h Ih). lia.
  - rewrite Pl. intros pc ops j E. destruct (Pw _ _ _ E) as [L|[-> ->]].
    + destruct (Po _ _ _ E L) as [[st' [E1 E2]] _]. rewrite Pk. exists st'. split; auto. intros NH. destruct (E2 NH) as [E3 E4]. split; auto.
      intros q Iq. destruct (E3 q Iq). split; auto. lia.
    + destruct Pn as [ops' [E' [E1 E2]]]. rewrite E' in E. injection E as <-. rewrite Pk. exists cur. split; auto. intros _. split; auto.
      intros q Iq. rewrite Su in Iq. destruct Iq.
Qed.

(** The blocks after an instruction. *)
Definition post (s : cs) (f : nat -> list nat) (pc : nat) (st : list nat) : Prop :=
  exists ops i, nth_error (instrs s) pc = Some (ops, i) /\ ops_stack (block s) ops (f pc) = Some st /\ ~ exits i.

(** One whose successors are not known yet. *)
Lemma append_hole : forall H s f cur i, OK H s f cur -> item (block s) (bnext s) ([], i) -> ~ exits i ->
  exists f', step s f (append_instr i s) f' /\ Done (length (instrs s) :: H) (append_instr i s) f' /\
    post (append_instr i s) f' (length (instrs s)) cur /\ length (instrs (append_instr i s)) = S (length (instrs s)).
Proof.
  intros H s f cur i O It Ne. destruct (append_pushed _ _ _ _ _ O It) as [f' [s1 [P [St [L1 [B1 K1]]]]]].
  exists f'. split; auto. destruct P as [Pc Pl Pp Pa Ph Pb Pk Pcur Po Pn Pw]. rewrite L1 in *. split; [constructor; auto|split; [|auto]].
  - unfold bnd in *. rewrite Pa, Pl. lia.
  - intros h [<-|Ih]; [lia|]. specialize (Ph h Ih). lia.
  - rewrite Pl. intros pc ops j E. destruct (Pw _ _ _ E) as [L|[-> ->]].
    + destruct (Po _ _ _ E L) as [[st' [E1 E2]] _]. rewrite Pk. exists st'. split; auto. intros NH. destruct E2 as [E3 E4]; [intros X; apply NH; right; auto|].
      split; auto. intros q Iq. destruct (E3 q Iq). split; auto. lia.
    + destruct Pn as [ops' [E' [E1 E2]]]. rewrite E' in E. injection E as <-. rewrite Pk. exists cur. split; auto. intros X. exfalso. apply X. left. auto.
  - destruct Pn as [ops' [E' [E1 E2]]]. exists ops', i. rewrite Pk. auto.
Qed.

Lemma compile_exit_ok : forall H exit v s f cur, OK H s f cur -> (exit = true -> length cur = 1) ->
  exists f', step s f (compile_exit exit (Some v) s) f' /\
    if exit then Done H (compile_exit exit (Some v) s) f' else OK H (compile_exit exit (Some v) s) f' cur.
Proof.
  intros H exit v s f cur O L. destruct exit; cbn [compile_exit]; [|exists f; split; auto; apply step_refl].
  apply (append_end H s f cur (IReturn v)); auto. split; cbn; auto.
Qed.

Lemma new_basic_block_OK : forall H s f cur, OK H s f cur -> OK H (new_basic_block s) f cur /\ step s f (new_basic_block s) f.
Proof.
  intros H s f cur [[Cb Ci Cp] Ed Nc Hs Ac]. unfold bnd in Hs. split.
  - constructor; [constructor| | | |]; cbn [new_basic_block with_code instrs pending active block bnext]; auto.
    + unfold bnd. cbn. intros h Ih. specialize (Hs h Ih). destruct (active s) as [a|]; auto. destruct Ac as [La _]. lia.
    + destruct (active s) as [a|]; auto. destruct Ac as (La & Pe & Fc & _). rewrite Pe. cbn. f_equal. auto.
  - unfold step, bnd. cbn [new_basic_block with_code instrs active]. split; [|split; auto].
    + constructor; auto.
    + destruct (active s) as [a|]; auto. destruct Ac as [La _]. lia.
Qed.

(** A new branch after code that control does not leave at its end. *)
Lemma new_branch : forall H s f c0, Done H s f -> c0 <> [] ->
  OK H (new_basic_block s) (fun pc => if pc <? length (instrs s) then f pc else c0) c0 /\
  keep (length (instrs s)) s f (new_basic_block s) (fun pc => if pc <? length (instrs s) then f pc else c0).
Proof.
  intros H s f c0 [[Cb Ci Cp] Pe Bn Hs Ed] Nc.
  assert (Up : forall n, n < length (instrs s) -> (if n <? length (instrs s) then f n else c0) = f n).
  { intros n L. apply Nat.ltb_lt in L. rewrite L. auto. }
  split.
  - constructor; [constructor| | | |]; cbn [new_basic_block with_code instrs pending active block bnext]; auto.
    + intros pc ops i E. cbn [new_basic_block with_code instrs block] in *.
      assert (L : pc < length (instrs s)) by (apply nth_error_Some; congruence). rewrite Up by auto.
      destruct (Ed _ _ _ E) as [st' [E1 E2]]. exists st'. split; auto. intros NH. destruct (E2 NH) as [E3 E4]. split; auto.
      intros q Iq. destruct (E3 q Iq) as [E5 E6]. rewrite Up by auto. split; auto.
    + rewrite Pe, Nat.ltb_irrefl. reflexivity.
  - constructor; auto.
Qed.

(** ** Blocks *)
Lemma with_blocks_OK : forall H s f cur st n, OK H s f cur -> bnext s <= n ->
  OK H (with_blocks st n s) f cur /\ step s f (with_blocks st n s) f.
Proof.
  intros H s f cur st n [[Cb Ci Cp] Ed Nc Hs Ac] L. split.
  - constructor; [constructor| | | |]; cbn [with_blocks instrs pending active block bnext]; auto.
    + lia.
    + eapply Forall_impl; [|exact Ci]. intros p. apply item_le. auto.
    + eapply ops_in_le; eauto.
  - split; [|split; auto]. constructor; auto.
Qed.

Lemma enter_block_OK : forall H (replace : bool) s f cur, OK H s f cur ->
  exists f' id, step s f (enter_block replace s) f' /\ OK H (enter_block replace s) f' (id :: if replace then tl cur else cur).
Proof.
  intros H replace s f cur O. unfold enter_block, push_block. cbv zeta.
  destruct (with_blocks_OK H s f cur (bnext s :: bstack s) (S (bnext s)) O) as [O1 S1]; [lia|].
  set (s1 := with_blocks (bnext s :: bstack s) (S (bnext s)) s) in *.
  pose proof (cl_block _ (ok_clean _ _ _ _ O)) as Cb. pose proof (ok_cur _ _ _ _ O) as Nc.
  assert (Eq : block s + (bnext s - block s) = bnext s) by lia.
  destruct (append_op_OK H s1 f cur ((if replace then OReplace else OEnter) (bnext s - block s1)) (bnext s :: if replace then tl cur else cur) O1) as [f' [S2 O2]].
  - unfold s1. cbn [with_blocks block]. destruct cur as [|x cur]; [congruence|]. destruct replace; cbn; rewrite Eq; reflexivity.
  - unfold s1. cbn [with_blocks block bnext]. destruct replace; cbn; lia.
  - exists f', (bnext s). split; auto. eapply step_trans; eauto.
Qed.

Lemma exit_block_OK : forall H s f id cur s', OK H s f (id :: cur) -> cur <> [] -> exit_block false s = Some s' ->
  exists f', step s f s' f' /\ OK H s' f' cur.
Proof.
  intros H s f id cur s' O Nc E. unfold exit_block in E. destruct (bstack s) as [|b r] eqn:Eb; [discriminate|]. cbv zeta in E. injection E as <-.
  destruct (with_blocks_OK H s f (id :: cur) r (bnext s) O) as [O1 S1]; [lia|].
  destruct (append_op_OK H (with_blocks r (bnext s) s) f (id :: cur) OExit cur O1) as [f' [S2 O2]].
  - destruct cur; [congruence|reflexivity].
  - exact I.
  - exists f'. split; auto. eapply step_trans; eauto.
Qed.

Lemma exit_block_same : forall s s', exit_block true s = Some s' -> same_code s s'.
Proof. intros s s' E. unfold exit_block in E. destruct (bstack s); [discriminate|]. injection E as <-. repeat split. Qed.

(** ** Loops *)
Definition comp_ok (comp : bool -> tc -> cs -> option (option var * cs)) : Prop :=
  forall H (exit : bool) e s f cur r s', OK H s f cur -> comp exit e s = Some (r, s') -> (exit = true -> length cur = 1) ->
  exists f', step s f s' f' /\ if exit then Done H s' f' /\ length (instrs s) < length (instrs s') else OK H s' f' cur.

Lemma compile_list_OK : forall comp, comp_ok comp -> forall H es s f cur vs s', OK H s f cur ->
  compile_list comp es s = Some (vs, s') -> exists f', step s f s' f' /\ OK H s' f' cur.
Proof.
  intros comp C H. induction es as [|e es IH]; intros s f cur vs s' O E; cbn [compile_list] in E.
  - injection E as _ <-. exists f. split; auto. apply step_refl.
  - destruct (comp false e s) as [[[v|] s1]|] eqn:E1; try discriminate.
    destruct (compile_list comp es s1) as [[ws s2]|] eqn:E2; [|discriminate]. injection E as _ <-.
    destruct (C H false e s f cur _ _ O E1) as [f1 [S1 O1]]; [discriminate|].
    destruct (IH _ _ _ _ _ O1 E2) as [f2 [S2 O2]]. exists f2. split; auto. eapply step_trans; eauto.
Qed.

Lemma new_instr_OK : forall H s f cur d s1 i, OK H s f cur -> new_local s = (d, s1) -> item (block s) (bnext s) ([], i) ->
  (forall pc, succs pc i = [S pc]) -> ~ exits i -> exists f', step s f (append_instr i s1) f' /\ OK H (append_instr i s1) f' cur.
Proof.
  intros H s f cur d s1 i O N It Su Ne. pose proof (new_local_same _ _ _ N) as Sm.
  destruct (append_plain H s1 f cur i) as [f' [S1 O1]]; auto.
  - eapply same_OK; eauto.
  - destruct Sm as (_ & _ & _ & B & B'). rewrite B, B'. auto.
  - exists f'. split; auto. eapply step_trans; [apply same_step|]; eauto.
Qed.

Lemma compile_fields_OK : forall comp, comp_ok comp -> forall H src es i s f cur vs s', OK H s f cur ->
  compile_fields comp src i es s = Some (vs, s') -> exists f', step s f s' f' /\ OK H s' f' cur.
Proof.
  intros comp C H src. induction es as [|[e|] es IH]; intros i s f cur vs s' O E; cbn [compile_fields] in E.
  - injection E as _ <-. exists f. split; auto. apply step_refl.
  - destruct (comp false e s) as [[[v|] s1]|] eqn:E1; try discriminate.
    destruct (compile_fields comp src (S i) es s1) as [[ws s2]|] eqn:E2; [|discriminate]. injection E as _ <-.
    destruct (C H false e s f cur _ _ O E1) as [f1 [S1 O1]]; [discriminate|].
    destruct (IH _ _ _ _ _ _ O1 E2) as [f2 [S2 O2]]. exists f2. split; auto. eapply step_trans; eauto.
  - destruct (new_local s) as [d s1] eqn:N. cbv zeta in E.
    destruct (compile_fields comp src (S i) es (append_instr (IAccess true src i d) s1)) as [[ws s2]|] eqn:E2; [|discriminate]. injection E as _ <-.
    destruct (new_instr_OK H s f cur d s1 (IAccess true src i d) O N) as [f1 [S1 O1]]; [repeat constructor|reflexivity|auto|].
    destruct (IH _ _ _ _ _ _ O1 E2) as [f2 [S2 O2]]. exists f2. split; auto. eapply step_trans; eauto.
Qed.

Lemma let_vars_OK : forall rec n H s f cur ds s', OK H s f cur -> let_vars rec n s = (ds, s') ->
  exists f', step s f s' f' /\ OK H s' f' cur.
Proof.
  intros rec. induction n as [|n IH]; intros H s f cur ds s' O E; cbn [let_vars] in E.
  - injection E as _ <-. exists f. split; auto. apply step_refl.
  - destruct rec.
    + destruct (new_local s) as [d s1] eqn:N. cbv zeta in E.
      destruct (let_vars true n (push_var (Some (Local d)) (append_instr (IRef d) s1))) as [ds' s2] eqn:E2. injection E as _ <-.
      destruct (new_instr_OK H s f cur d s1 (IRef d) O N) as [f1 [S1 O1]]; [repeat constructor|reflexivity|auto|].
      assert (Sm : same_code (append_instr (IRef d) s1) (push_var (Some (Local d)) (append_instr (IRef d) s1))) by repeat split.
      destruct (IH _ _ _ _ _ _ (same_OK _ _ _ _ _ Sm O1) E2) as [f2 [S2 O2]]. exists f2. split; auto.
      eapply step_trans; [exact S1|]. eapply step_trans; [apply same_step; exact Sm|exact S2].
    + assert (Sm : same_code s (push_var None s)) by repeat split.
      destruct (IH _ _ _ _ _ _ (same_OK _ _ _ _ _ Sm O) E) as [f2 [S2 O2]]. exists f2. split; auto.
      eapply step_trans; [apply same_step; exact Sm|exact S2].
Qed.

Lemma let_defs_OK : forall comp, comp_ok comp -> forall H es s f cur vs s', OK H s f cur ->
  let_defs comp es s = Some (vs, s') -> exists f', step s f s' f' /\ OK H s' f' cur.
Proof.
  intros comp C H. induction es as [|e es IH]; intros s f cur vs s' O E; cbn [let_defs] in E.
  - injection E as _ <-. exists f. split; auto. apply step_refl.
  - destruct (comp false e (enter_block false s)) as [[[v|] s1]|] eqn:E1; try discriminate.
    destruct (exit_block false s1) as [s2|] eqn:E2; [|discriminate].
    destruct (let_defs comp es s2) as [[ws s3]|] eqn:E3; [|discriminate]. injection E as _ <-.
    destruct (enter_block_OK H false s f cur O) as [f0 [id [S0 O0]]]. cbn [tl] in O0.
    destruct (C H false e _ f0 _ _ _ O0 E1) as [f1 [S1 O1]]; [discriminate|]. cbn in O1.
    destruct (exit_block_OK H s1 f1 id cur s2 O1 (ok_cur _ _ _ _ O) E2) as [f2 [S2 O2]].
    destruct (IH _ _ _ _ _ O2 E3) as [f3 [S3 O3]]. exists f3. split; auto.
    eapply step_trans; [exact S0|]. eapply step_trans; [exact S1|]. eapply step_trans; eauto.
Qed.

Lemma let_sets_OK : forall defs refs i H s f cur s', OK H s f cur -> let_sets refs i defs s = Some s' ->
  exists f', step s f s' f' /\ OK H s' f' cur.
Proof.
  induction defs as [|v defs IH]; intros refs i H s f cur s' O E; cbn [let_sets] in E.
  - injection E as <-. exists f. split; auto. apply step_refl.
  - cbv zeta in E. set (s1 := match refs with d :: _ => append_instr (IRefDef d v) s | [] => s end) in *.
    assert (X : exists f1, step s f s1 f1 /\ OK H s1 f1 cur).
    { unfold s1. destruct refs as [|d refs]; [exists f; split; auto; apply step_refl|].
      apply append_plain; auto. repeat constructor. }
    destruct X as [f1 [S1 O1]]. destruct (set_var i v s1) as [s2|] eqn:E2; [|discriminate].
    pose proof (set_var_same _ _ _ _ E2) as Sm.
    destruct (IH _ _ _ _ _ _ _ (same_OK _ _ _ _ _ Sm O1) E) as [f2 [S2 O2]]. exists f2. split; auto.
    eapply step_trans; [exact S1|]. eapply step_trans; [apply same_step; exact Sm|exact S2].
Qed.

(** ** Select *)
Lemma same_keep : forall n s s' f, same_code s s' -> keep n s f s' f.
Proof. intros n s s' f (A1 & A2 & A3 & A4 & A5). constructor; try rewrite A1; try rewrite A5; auto. Qed.
Lemma step_keep : forall s f s' f', step s f s' f' -> keep (bnd s) s f s' f'.
Proof. intros s f s' f' [K _]. exact K. Qed.

Lemma branch_ok : forall comp, comp_ok comp -> forall H (exit : bool) dest e s f c0 pc s', Done H s f -> c0 <> [] -> (exit = true -> length c0 = 1) ->
  select_branch comp exit dest e s = Some (pc, s') ->
  exists f', pc = length (instrs s) /\ keep (length (instrs s)) s f s' f' /\ f' pc = c0 /\ length (instrs s) < length (instrs s') /\
    length (instrs s) <= bnd s' /\ if exit then Done H s' f' else OK H s' f' c0.
Proof.
  intros comp C H exit dest e s f c0 pc s' D Nc L E. unfold select_branch in E. cbv zeta in E.
  destruct (new_branch H s f c0 D Nc) as [O0 K0]. set (f0 := fun pc => if pc <? length (instrs s) then f pc else c0) in *.
  destruct (enter_block_OK H exit _ f0 c0 O0) as [f1 [id [S1 O1]]].
  destruct (comp exit e (enter_block exit (new_basic_block s))) as [[r s2]|] eqn:E1; [|discriminate].
  destruct (C H exit e _ f1 _ _ _ O1 E1) as [f2 [S2 O2]].
  { intros Q. subst exit. specialize (L eq_refl). destruct c0 as [|x [|y c0]]; cbn in *; lia. }
  pose proof (step_trans _ _ _ _ _ _ S1 S2) as S12.
  assert (Bn : bnd (new_basic_block s) = length (instrs s)) by reflexivity.
  assert (F0 : f0 (length (instrs s)) = c0) by (unfold f0; rewrite Nat.ltb_irrefl; auto).
  assert (Fin : exists f3 s3, step (new_basic_block s) f0 s3 f3 /\ same_code s3 s' /\ (if exit then Done H s3 f3 else OK H s3 f3 c0) /\
    length (instrs s) < length (instrs s3) /\ pc = length (instrs s)).
  { destruct exit.
    - destruct (exit_block true s2) as [s3|] eqn:E2; [|discriminate]. destruct (release r s3) as [s4|] eqn:E3; [|discriminate].
      injection E as <- <-. exists f2, s2. split; auto. split; [eapply same_trans; [eapply exit_block_same|eapply release_same]; eauto|]. split; [apply O2|].
      split; [|reflexivity]. destruct O2 as [_ L2]. pose proof (kp_len _ _ _ _ _ (step_keep _ _ _ _ S1)) as K. cbn [new_basic_block with_code instrs] in K. lia.
    - destruct r as [v|]; [|discriminate]. destruct (exit_block false (append_instr (ICopy v dest) s2)) as [s3|] eqn:E2; [|discriminate].
      destruct (release (Some v) s3) as [s4|] eqn:E3; [|discriminate]. injection E as <- <-.
      destruct (append_plain H s2 f2 (id :: c0) (ICopy v dest) O2) as [f3 [S3 O3]]; [repeat constructor|reflexivity|auto|].
      destruct (exit_block_OK H _ f3 id c0 s3 O3 Nc E2) as [f4 [S4 O4]].
      exists f4, s3. split; [eapply step_trans; [exact S12|]; eapply step_trans; eauto|]. split; [eapply release_same; eauto|]. split; auto.
      split; [|reflexivity].
      pose proof (kp_len _ _ _ _ _ (step_keep _ _ _ _ S12)) as K. cbn [new_basic_block with_code instrs] in K.
      destruct (append_instr_bare (ICopy v dest) s2) as [_ [_ B]]. apply (f_equal (@length _)) in B. rewrite app_length, !bare_len in B. cbn in B.
      pose proof (kp_len _ _ _ _ _ (step_keep _ _ _ _ S4)). lia. }
  destruct Fin as [f3 [s3 [S3 [Sm [Q [Ln Ep]]]]]]. exists f3. split; auto. destruct S3 as [K3 [F3 B3]]. rewrite Bn in *.
  split; [|split; [|split; [|split]]].
  - eapply keep_trans; [apply le_n|exact K0|]. eapply keep_trans; [apply le_n|exact K3|]. apply same_keep. exact Sm.
  - subst pc. rewrite F3, F0. auto.
  - destruct Sm as [-> _]. auto.
  - destruct Sm as (A1 & _ & A3 & _). unfold bnd in *. rewrite A1, A3. auto.
  - destruct exit; [eapply same_Done; eauto|eapply same_OK; eauto].
Qed.

Lemma Done_in : forall H H' s f, (forall x, In x H -> In x H') -> (forall h, In h H' -> h < length (instrs s)) -> Done H s f -> Done H' s f.
Proof.
  intros H H' s f I L [A B C D E]. constructor; auto.
  intros pc ops i Q. destruct (E _ _ _ Q) as [st' [E1 E2]]. exists st'. split; auto.
Qed.

Lemma post_keep : forall n s f s' f' pc c, keep n s f s' f' -> pc < n -> post s f pc c -> post s' f' pc c.
Proof.
  intros n s f s' f' pc c [K1 K2 K3 K4 K5] L [ops [i [E1 [E2 E3]]]]. exists ops, i. rewrite K4, K1, K5 by auto. auto.
Qed.
Lemma post_lt : forall s f pc c, post s f pc c -> pc < length (instrs s).
Proof. intros s f pc c [ops [i [E _]]]. apply nth_error_Some. congruence. Qed.

Lemma branches_ok : forall comp, comp_ok comp -> forall (exit : bool) dest c0, c0 <> [] -> (exit = true -> length c0 = 1) ->
  forall ts H s f tgts gotos s', Done H s f -> select_branches comp exit dest ts s = Some (tgts, gotos, s') ->
  exists f', keep (length (instrs s)) s f s' f' /\
    (forall q, In q (map snd tgts) -> q < length (instrs s') /\ f' q = c0) /\
    (forall g, In g gotos -> length (instrs s) <= g /\ post s' f' g c0) /\
    (exit = true -> gotos = []) /\ Done (gotos ++ H) s' f'.
Proof.
  intros comp C exit dest c0 Nc L. induction ts as [|[tag e] ts IH]; intros H s f tgts gotos s' D E; cbn [select_branches] in E.
  - injection E as <- <- <-. exists f. split; [apply keep_refl|]. split; [intros ? []|]. split; [intros ? []|]. auto.
  - destruct (select_branch comp exit dest e s) as [[pc s1]|] eqn:E1; [|discriminate]. cbv zeta in E.
    destruct (branch_ok comp C H exit dest e s f c0 pc s1 D Nc L E1) as [f1 [Ep [K1 [F1 [Ln [Bn Q]]]]]].
    destruct exit.
    + destruct (select_branches comp true dest ts s1) as [[[tg go] s2]|] eqn:E2; [|discriminate]. injection E as <- <- <-.
      destruct (IH H s1 f1 tg go s2 Q E2) as [f2 [K2 [T2 [G2 [X2 D2]]]]]. exists f2. split; [eapply keep_trans; [|exact K1|exact K2]; lia|].
      split; [|split; [|split; auto]].
      * intros q [Eq|I]; [|auto]. cbn in Eq. subst q pc. pose proof (kp_len _ _ _ _ _ K2). split; [lia|]. rewrite (kp_f _ _ _ _ _ K2) by auto. auto.
      * intros g Ig. destruct (G2 g Ig) as [G3 G4]. split; auto. lia.
    + destruct (append_hole H s1 f1 c0 (IGoto 0) Q) as [f2 [S2 [D2 [P2 Ln2]]]]; [repeat constructor|auto|].
      set (s2 := append_instr (IGoto 0) s1) in *.
      destruct (select_branches comp false dest ts s2) as [[[tg go] s3]|] eqn:E2; [|discriminate]. injection E as <- <- <-.
      destruct (IH _ s2 f2 tg go s3 D2 E2) as [f3 [K3 [T3 [G3 [X3 D3]]]]]. exists f3.
      destruct S2 as [K2 [F2 B2]].
      assert (K12 : keep (length (instrs s)) s f s2 f2) by (eapply keep_trans; [|exact K1|exact K2]; lia).
      split; [eapply keep_trans; [|exact K12|exact K3]; lia|].
      assert (Fp : f2 pc = c0).
      { subst pc. destruct (Nat.eq_dec (length (instrs s)) (bnd s1)) as [Eq|Eq]; [rewrite Eq in *; congruence|].
        rewrite (kp_f _ _ _ _ _ K2) by lia. auto. }
      split; [|split; [|split; [discriminate|]]].
      * intros q [Eq|I]; [|auto]. cbn in Eq. subst q pc. pose proof (kp_len _ _ _ _ _ K3). split; [lia|]. rewrite (kp_f _ _ _ _ _ K3) by lia. auto.
      * intros g [<-|Ig].
        -- split; [lia|]. eapply post_keep; [exact K3| |exact P2]. lia.
        -- destruct (G3 g Ig) as [G4 G5]. split; auto. lia.
      * eapply Done_in; [| |exact D3].
        -- intros x Ix. apply in_app_or in Ix. destruct Ix as [Ix|[<-|Ix]]; [right; apply in_or_app; auto|left; auto|right; apply in_or_app; auto].
        -- intros h Ih. apply (dn_holes _ _ _ D3). cbn [app] in Ih. destruct Ih as [<-|Ih]; [apply in_or_app; right; left; auto|].
           apply in_app_or in Ih. apply in_or_app. destruct Ih; [auto|right; right; auto].
Qed.

(** Completing an instruction. *)
Lemma patch_edges : forall H s f n pc i c, edges (pc :: H) s f n -> post s f pc c -> ~ exits i ->
  (forall q, In q (succs pc i) -> q < n /\ f q = c) -> edges H (patch pc i s) f n.
Proof.
  intros H s f n pc i c Ed Po Ne Su. pose proof (post_lt _ _ _ _ Po) as L. destruct Po as [ops [j [E1 [E2 E3]]]].
  unfold patch. rewrite E1. intros q ops' i' E. cbn [with_code instrs block] in *. rewrite nth_set in E by auto.
  destruct (q =? pc) eqn:Q.
  - apply Nat.eqb_eq in Q. subst q. injection E as <- <-. exists c. split; auto. intros _. split; [auto|contradiction].
  - apply Nat.eqb_neq in Q. destruct (Ed _ _ _ E) as [st' [E4 E5]]. exists st'. split; auto. intros NH. apply E5. intros [X|X]; auto.
Qed.

Lemma patch_fields : forall pc i s, length (instrs (patch pc i s)) = length (instrs s) /\ active (patch pc i s) = active s /\
  pending (patch pc i s) = pending s /\ block (patch pc i s) = block s /\ bnext (patch pc i s) = bnext s.
Proof.
  intros pc i s. unfold patch. destruct (nth_error (instrs s) pc) as [[ops j]|]; cbn; auto. rewrite set_nth_length. auto.
Qed.

Lemma patch_clean : forall pc i s, clean s -> item (block s) (bnext s) ([], i) -> clean (patch pc i s).
Proof.
  intros pc i s [A B C] [_ I]. unfold patch. destruct (nth_error (instrs s) pc) as [[ops j]|] eqn:E; [|constructor; auto].
  constructor; cbn [with_code block bnext instrs pending]; auto. apply Forall_set_nth; auto. split; auto.
  rewrite Forall_forall in B. apply (B _ (nth_error_In _ _ E)).
Qed.

Lemma patch_post : forall pc i s f q c, post s f q c -> ~ exits i -> post (patch pc i s) f q c.
Proof.
  intros pc i s f q c [ops [j [E1 [E2 E3]]]] Ne. unfold patch. destruct (nth_error (instrs s) pc) as [[ops' j']|] eqn:E; [|exists ops, j; auto].
  assert (L : pc < length (instrs s)) by (apply nth_error_Some; congruence).
  unfold post. cbn [with_code instrs block]. rewrite nth_set by auto. destruct (q =? pc) eqn:Q.
  - apply Nat.eqb_eq in Q. subst q. exists ops', i. rewrite E in E1. injection E1 as <- <-. auto.
  - exists ops, j. auto.
Qed.

Lemma patch_keep : forall pc i s f n, n <= pc -> keep n s f (patch pc i s) f.
Proof.
  intros pc i s f n L. destruct (patch_fields pc i s) as [A [_ [_ [B C]]]]. constructor; try lia; auto.
  intros q P. unfold patch. destruct (nth_error (instrs s) pc) as [[ops j]|] eqn:E; auto. cbn [with_code instrs].
  rewrite nth_set by (apply nth_error_Some; congruence). destruct (q =? pc) eqn:Q; auto. apply Nat.eqb_eq in Q. lia.
Qed.

Lemma patches_ok : forall gotos m H s f c, edges (gotos ++ H) s f (S (length (instrs s))) -> clean s ->
  (forall g, In g gotos -> m <= g /\ post s f g c) -> f (length (instrs s)) = c ->
  let s' := fold_left (fun s pc => patch pc (IGoto (length (instrs s))) s) gotos s in
  edges H s' f (S (length (instrs s'))) /\ clean s' /\ length (instrs s') = length (instrs s) /\ active s' = active s /\
  pending s' = pending s /\ block s' = block s /\ bnext s' = bnext s /\ keep m s f s' f.
Proof.
  induction gotos as [|g gotos IH]; intros m H s f c Ed Cl Gs Fc; cbn [fold_left].
  - cbv zeta. split; auto. split; auto. split; auto. split; auto. split; auto. split; auto. split; auto. apply keep_refl.
  - destruct (Gs g (or_introl eq_refl)) as [Mg Pg].
    destruct (patch_fields g (IGoto (length (instrs s))) s) as [A1 [A2 [A3 [A4 A5]]]].
    destruct (IH m H (patch g (IGoto (length (instrs s))) s) f c) as [B1 [B2 [B3 [B4 [B5 [B6 [B7 B8]]]]]]].
    + rewrite A1. apply (patch_edges _ _ _ _ _ _ c); auto. intros q [<-|[]]. split; auto.
    + apply patch_clean; auto. repeat constructor.
    + intros x Ix. destruct (Gs x (or_intror Ix)) as [M P]. split; auto. apply patch_post; auto.
    + rewrite A1. auto.
    + cbv zeta in *. split; auto. split; auto. split; [lia|]. split; [congruence|]. split; [congruence|]. split; [congruence|]. split; [congruence|].
      eapply keep_trans; [apply le_n|apply patch_keep; exact Mg|exact B8].
Qed.

Lemma select_end : forall (exit : bool) H s0 f0 s f c select_pc cv nt tgts dpc gotos,
  (* before, with the select to be completed *)
  post s0 f0 select_pc c -> S select_pc = length (instrs s0) -> keep (length (instrs s0)) s0 f0 s f ->
  (forall h, In h H -> h < select_pc) ->
  (forall q, In q (dpc :: map snd tgts) -> q < length (instrs s) /\ f q = c) ->
  (forall g, In g gotos -> length (instrs s0) <= g /\ post s f g c) ->
  (if exit then gotos = [] /\ Done (gotos ++ select_pc :: H) s f else OK (gotos ++ select_pc :: H) s f c) ->
  active s = None -> pending s = [] ->
  let s1 := patch select_pc (ISelect cv nt tgts dpc) s in
  let s' := fold_left (fun s pc => patch pc (IGoto (length (instrs s))) s) gotos s1 in
  keep select_pc s f s' f /\ (if exit then Done H s' f else OK H s' f c) /\ active s' = None /\ length (instrs s') = length (instrs s).
Proof.
  intros exit H s0 f0 s f c pc cv nt tgts dpc gotos P0 L0 K Hs Tg Gs O Ac Pe. cbv zeta.
  assert (P : post s f pc c) by (eapply post_keep; [exact K| |exact P0]; lia).
  destruct (patch_fields pc (ISelect cv nt tgts dpc) s) as [A1 [A2 [A3 [A4 A5]]]].
  set (s1 := patch pc (ISelect cv nt tgts dpc) s) in *.
  assert (Kp : keep pc s f s1 f) by (apply patch_keep; auto).
  destruct exit.
  - destruct O as [-> D]. cbn [app fold_left] in *. split; auto. split; [|split; [congruence|auto]].
    destruct D as [D1 D2 D3 D4 D5]. constructor.
    + apply patch_clean; auto. repeat constructor.
    + congruence.
    + unfold bnd. rewrite A2, Ac. auto.
    + intros h Ih. rewrite A1. apply D4. right. auto.
    + rewrite A1. apply (patch_edges _ _ _ _ _ _ c); auto.
  - destruct O as [O1 O2 O3 O4 O5]. rewrite Ac in O5.
    assert (Edp : edges (pc :: gotos ++ H) s f (S (length (instrs s)))).
    { intros q ops i E. destruct (O2 _ _ _ E) as [st' [E1 E2]]. exists st'. split; auto. intros NH. apply E2. intros X. apply NH.
      apply in_app_or in X. destruct X as [X|[X|X]]; [right; apply in_or_app; auto|left; auto|right; apply in_or_app; auto]. }
    assert (Fc : f (length (instrs s)) = c) by (rewrite Pe in O5; cbn in O5; congruence).
    destruct (patches_ok gotos pc H s1 f c) as [B1 [B2 [B3 [B4 [B5 [B6 [B7 B8]]]]]]].
    + rewrite A1. apply (patch_edges _ _ _ _ _ _ c); auto. intros q Iq. destruct (Tg q Iq). split; auto.
    + apply patch_clean; auto. repeat constructor.
    + intros g Ig. destruct (Gs g Ig) as [M G]. split; [lia|]. apply patch_post; auto.
    + rewrite A1. auto.
    + cbv zeta in *. set (s' := fold_left _ gotos s1) in *.
      split; [eapply keep_trans; [apply le_n|exact Kp|exact B8]|]. split; [|split; [congruence|lia]]. constructor; auto.
      * intros h Ih. specialize (Hs h Ih). unfold bnd. rewrite B4, A2, Ac. pose proof (post_lt _ _ _ _ P). lia.
      * rewrite B4, A2, Ac, B5, A3, B6, A4, B3, A1. auto.
Qed.

Lemma OK_pend : forall H s f cur i, OK H s f cur -> pending (append_instr i s) = [].
Proof.
  intros H s f cur i O. rewrite append_instr_push. unfold push_instr. destruct (pending (append_op (OSample 1) s)); reflexivity.
Qed.

(** An instruction that writes a new local and is followed by the return, if there is one. *)
Lemma finish_OK : forall H (exit : bool) s f cur d s1 i s3, OK H s f cur -> new_local s = (d, s1) -> (exit = true -> length cur = 1) ->
  item (block s) (bnext s) ([], i) -> (forall pc, succs pc i = [S pc]) -> ~ exits i ->
  same_code (compile_exit exit (Some (Local d)) (append_instr i s1)) s3 ->
  exists f', step s f s3 f' /\ if exit then Done H s3 f' /\ length (instrs s) < length (instrs s3) else OK H s3 f' cur.
Proof.
  intros H exit s f cur d s1 i s3 O N L It Su Ne Sm.
  destruct (new_instr_OK H s f cur d s1 i O N It Su Ne) as [f1 [S1 O1]].
  destruct (compile_exit_ok H exit (Local d) _ f1 cur O1 L) as [f2 [S2 O2]]. exists f2.
  split; [eapply step_trans; [exact S1|]; eapply step_trans; [exact S2|]; apply same_step; exact Sm|].
  destruct exit; [|eapply same_OK; eauto]. split; [eapply same_Done; eauto|]. destruct Sm as [Si _]. rewrite Si. clear -N.
  pose proof (new_local_same _ _ _ N) as [Sn _]. cbn [compile_exit].
  destruct (append_instr_bare (IReturn (Local d)) (append_instr i s1)) as [_ [_ B]]. destruct (append_instr_bare i s1) as [_ [_ B']].
  apply (f_equal (@length _)) in B, B'. rewrite app_length, !bare_len in B, B'. cbn [length] in *. rewrite Sn in *. lia.
Qed.

Lemma finish_after : forall H (exit : bool) s0 f0 s f cur d s1 i s3, step s0 f0 s f -> OK H s f cur -> new_local s = (d, s1) -> (exit = true -> length cur = 1) ->
  item (block s) (bnext s) ([], i) -> (forall pc, succs pc i = [S pc]) -> ~ exits i ->
  same_code (compile_exit exit (Some (Local d)) (append_instr i s1)) s3 ->
  exists f', step s0 f0 s3 f' /\ if exit then Done H s3 f' /\ length (instrs s0) < length (instrs s3) else OK H s3 f' cur.
Proof.
  intros H exit s0 f0 s f cur d s1 i s3 St O N L It Su Ne Sm.
  destruct (finish_OK H exit s f cur d s1 i s3 O N L It Su Ne Sm) as [f' [S1 O1]]. exists f'.
  split; [eapply step_trans; eauto|]. destruct exit; auto. destruct O1 as [D L1]. split; auto.
  pose proof (kp_len _ _ _ _ _ (step_keep _ _ _ _ St)). lia.
Qed.

(** The code of a function made by the compiler. *)
Lemma finish_balanced : forall s f nargs ns, Done [] s f -> f 0 = [block s] -> 0 < length (instrs s) ->
  all_balanced (bnext s) (finish_code nargs ns s).
Proof.
  intros s f nargs ns [[Cb Ci Cp] _ _ _ Ed] F0 L.
  assert (V : forall pc st, visits (finish_code nargs ns s) pc st -> st = f pc /\ pc < length (instrs s) /\ forall b, In b st -> b < bnext s).
  { intros pc st V. induction V as [|pc st ops i st' q V [IH1 [IH2 IH3]] E Op Iq].
    - cbn. rewrite F0. split; auto. split; auto. intros b [<-|[]]. auto.
    - cbn [finish_code code_instrs code_block] in *. destruct (Ed _ _ _ E) as [st2 [E1 E2]]. rewrite IH1, E1 in Op. injection Op as <-.
      destruct (E2 (fun x => x)) as [E3 E4]. destruct (E3 q Iq) as [E5 E6]. split; auto. split; auto.
      rewrite Forall_forall in Ci. destruct (Ci _ (nth_error_In _ _ E)) as [Co _]. cbn [fst] in Co.
      rewrite <- IH1 in E1. clear -E1 Co IH3 Cb. revert st E1 IH3. induction ops as [|o ops IH]; intros st E1 I3 b Ib; cbn in E1; [injection E1 as <-; auto|].
      inversion Co as [|? ? Ho Hos]; subst. destruct (op_stack (block s) o st) as [stm|] eqn:Eo; [|discriminate].
      apply (IH Hos stm E1); auto. clear -Eo Ho I3 Cb. intros b Ib. destruct o as [a|a| |t]; cbn in *.
      + destruct st; [discriminate|]. injection Eo as <-. destruct Ib as [<-|Ib]; auto.
      + destruct st; [discriminate|]. injection Eo as <-. destruct Ib as [<-|Ib]; auto. apply I3. right. auto.
      + destruct st as [|x [|y st]]; try discriminate. injection Eo as <-. apply I3. right. auto.
      + injection Eo as <-. auto. }
  constructor.
  - split.
    + intros pc st Vi. destruct (V pc st Vi) as [-> [Lp R]]. cbn [finish_code code_instrs code_block].
      destruct (nth_error (instrs s) pc) as [[ops i]|] eqn:E; [|apply nth_error_None in E; lia].
      destruct (Ed _ _ _ E) as [st' [E1 E2]]. destruct (E2 (fun x => x)) as [E3 E4]. exists ops, i, st'. split; auto. split; auto. split; auto.
      rewrite Forall_forall in Ci. destruct (Ci _ (nth_error_In _ _ E)) as [Co _]. cbn [fst] in Co.
      clear -E1 Co R Cb. revert E1 R. generalize (f pc). induction ops as [|o ops IH]; intros st E1 I3 b Ib; cbn in E1; [injection E1 as <-; auto|].
      inversion Co as [|? ? Ho Hos]; subst. destruct (op_stack (block s) o st) as [stm|] eqn:Eo; [|discriminate].
      apply (IH Hos stm E1); auto. clear -Eo Ho I3 Cb. intros b Ib. destruct o as [a|a| |t]; cbn in *.
      * destruct st; [discriminate|]. injection Eo as <-. destruct Ib as [<-|Ib]; auto.
      * destruct st; [discriminate|]. injection Eo as <-. destruct Ib as [<-|Ib]; auto. apply I3. right. auto.
      * destruct st as [|x [|y st]]; try discriminate. injection Eo as <-. apply I3. right. auto.
      * injection Eo as <-. auto.
    + intros pc st st' V1 V2. destruct (V _ _ V1) as [-> _]. destruct (V _ _ V2) as [-> _]. auto.
  - cbn [finish_code code_instrs code_block]. intros ops d off c' sc I. rewrite Forall_forall in Ci. destruct (Ci _ I) as [_ X]. exact X.
Qed.

Lemma init_OK : forall na ns blk bst bn, blk < bn -> OK [] (init_scope na ns blk bst bn) (fun _ => [blk]) [blk].
Proof.
  intros. constructor; [constructor; cbn; auto| |discriminate|intros h []|reflexivity].
  intros pc ops i E. destruct pc; discriminate.
Qed.

Theorem compile_blocks : forall k, comp_ok (compile k).
Proof.
  induction k as [|k IH]; intros H exit e s f cur r s' O E L; [discriminate|].
  destruct e as [|v|rec bs b|fs|src fs|t a|c nt ts dflt|isS o t|scope b|g a|fs|ls]; cbn [compile] in E.
  - (* type *)
    destruct (new_local s) as [d s1] eqn:N. injection E as <- <-.
    apply (finish_OK H exit s f cur d s1 (IType d)); auto; [repeat constructor|apply same_refl].
  - (* var *)
    destruct (get_var v s) as [[x|]|] eqn:G; try discriminate. injection E as <- <-.
    pose proof (retain_same x s) as Sm. destruct (compile_exit_ok H exit x (retain x s) f cur (same_OK _ _ _ _ _ Sm O) L) as [f1 [S1 O1]].
    exists f1. split; [eapply step_trans; [apply same_step; exact Sm|exact S1]|]. destruct exit; auto. split; auto. cbn [compile_exit].
    destruct (append_instr_bare (IReturn x) (retain x s)) as [_ [_ B]]. apply (f_equal (@length _)) in B. rewrite app_length, !bare_len in B. cbn [length] in B.
    destruct Sm as [Si _]. rewrite Si in B. lia.
  - (* let *)
    destruct (let_vars rec (length bs) s) as [ds s1] eqn:E1.
    destruct (let_vars_OK _ _ H s f cur _ _ O E1) as [f1 [S1 O1]].
    destruct (let_defs (compile k) bs s1) as [[defs s2]|] eqn:E2; [|discriminate].
    destruct (let_defs_OK _ IH H _ _ _ _ _ _ O1 E2) as [f2 [S2 O2]].
    destruct (let_sets ds (length (vars s)) defs s2) as [s3|] eqn:E3; [|discriminate].
    destruct (let_sets_OK _ _ _ H _ _ _ _ O2 E3) as [f3 [S3 O3]].
    destruct (compile k exit b s3) as [[r4 s4]|] eqn:E4; [|discriminate].
    destruct (IH H exit b s3 f3 cur _ _ O3 E4 L) as [f4 [S4 O4]].
    destruct (pop_vars (length bs) s4) as [s5|] eqn:E5; [|discriminate]. injection E as <- <-.
    pose proof (pop_vars_same _ _ _ E5) as Sm. exists f4.
    pose proof (step_trans _ _ _ _ _ _ S1 (step_trans _ _ _ _ _ _ S2 S3)) as S13.
    split; [eapply step_trans; [exact S13|]; eapply step_trans; [exact S4|]; apply same_step; exact Sm|].
    destruct exit; [|eapply same_OK; eauto]. destruct O4 as [D4 L4]. split; [eapply same_Done; eauto|].
    destruct Sm as [Si _]. rewrite Si. pose proof (kp_len _ _ _ _ _ (step_keep _ _ _ _ S13)). lia.
  - (* struct *)
    destruct (compile_list (compile k) fs s) as [[vs s1]|] eqn:E1; [|discriminate].
    destruct (compile_list_OK _ IH H _ _ _ _ _ _ O E1) as [f1 [S1 O1]].
    destruct (new_local s1) as [d s2] eqn:N.
    destruct (releases vs _) as [s3|] eqn:E3; [|discriminate]. injection E as <- <-.
    apply (finish_after H exit s f s1 f1 cur d s2 (IStruct vs d)); auto; [repeat constructor|]. eapply releases_same; eauto.
  - (* copy *)
    destruct (compile k false src s) as [[[sv|] s1]|] eqn:E1; try discriminate.
    destruct (IH H false src s f cur _ _ O E1) as [f1 [S1 O1]]; [discriminate|].
    destruct (compile_fields (compile k) sv 0 fs s1) as [[vs s2]|] eqn:E2; [|discriminate].
    destruct (compile_fields_OK _ IH H _ _ _ _ _ _ _ _ O1 E2) as [f2 [S2 O2]].
    destruct (new_local s2) as [d s3] eqn:N. cbv zeta in E.
    destruct (releases vs _) as [s5|] eqn:E3; [|discriminate].
    destruct (release (Some sv) s5) as [s6|] eqn:E4; [|discriminate]. injection E as <- <-.
    apply (finish_after H exit s f s2 f2 cur d s3 (IStruct vs d)); auto; [eapply step_trans; eauto|repeat constructor|].
    eapply same_trans; [eapply releases_same; eauto|eapply release_same; eauto].
  - (* union *)
    destruct (compile k false a s) as [[[v|] s1]|] eqn:E1; try discriminate.
    destruct (IH H false a s f cur _ _ O E1) as [f1 [S1 O1]]; [discriminate|].
    destruct (new_local s1) as [d s2] eqn:N. cbv zeta in E. destruct (release (Some v) _) as [s3|] eqn:E3; [|discriminate]. injection E as <- <-.
    apply (finish_after H exit s f s1 f1 cur d s2 (IUnion t v d)); auto; [repeat constructor|]. eapply release_same; eauto.
  - (* select *)
    destruct (compile k false c s) as [[[cv|] s1]|] eqn:E1; try discriminate.
    destruct (IH H false c s f cur _ _ O E1) as [f1 [S1 O1]]; [discriminate|]. cbv zeta in E.
    pose proof (ok_cur _ _ _ _ O) as Nc.
    destruct (append_hole H s1 f1 cur (ISelect cv nt [] 0) O1) as [f2 [S2 [D2 [P2 Ln2]]]]; [repeat constructor|auto|].
    set (s2 := append_instr (ISelect cv nt [] 0) s1) in *.
    destruct (if exit then (0, s2) else new_local s2) as [dest s3] eqn:E3.
    assert (Sm3 : same_code s2 s3).
    { destruct exit; [injection E3 as _ <-; apply same_refl|]. apply (new_local_same s2 dest s3). exact E3. }
    pose proof (same_Done _ _ _ _ Sm3 D2) as D3.
    assert (I3 : instrs s3 = instrs s2) by apply Sm3.
    assert (P3 : post s3 f2 (length (instrs s1)) cur).
    { destruct P2 as [ops [i [Q1 [Q2 Q3]]]]. exists ops, i. rewrite I3. destruct Sm3 as (_ & _ & _ & Bk & _). rewrite Bk. auto. }
    destruct (select_branches (compile k) exit dest ts s3) as [[[tgts gotos] s4]|] eqn:E4; [|discriminate].
    destruct (branches_ok _ IH exit dest cur Nc L ts _ s3 f2 tgts gotos s4 D3 E4) as [f4 [K4 [T4 [G4 [X4 D4]]]]].
    destruct (select_branch (compile k) exit dest dflt s4) as [[dpc s5]|] eqn:E5; [|discriminate].
    destruct (branch_ok _ IH _ exit dest dflt s4 f4 cur dpc s5 D4 Nc L E5) as [f5 [Ep [K5 [F5 [Ln5 [Bn5 Q5]]]]]].
    pose proof (kp_len _ _ _ _ _ K4) as Le4. rewrite I3, Ln2 in Le4.
    set (s6 := new_basic_block (if exit then s5 else append_instr INop s5)) in *.
    assert (X6 : exists f6, keep dpc s5 f5 s6 f6 /\ f6 dpc = f5 dpc /\ active s6 = None /\ pending s6 = [] /\
      (if exit then Done (gotos ++ length (instrs s1) :: H) s6 f6 else OK (gotos ++ length (instrs s1) :: H) s6 f6 cur)).
    { unfold s6. destruct exit.
      - exists f5. split; [constructor; auto|]. split; auto. split; auto. destruct Q5 as [A1 A2 A3 A4 A5]. split; [exact A2|].
        constructor; [destruct A1 as [U1 U2 U3]; constructor; auto|exact A2|apply le_n|exact A4|exact A5].
      - destruct (append_plain _ s5 f5 cur INop Q5) as [f6 [S6 O6]]; [repeat constructor|reflexivity|auto|]. exists f6.
        destruct (new_basic_block_OK _ _ _ _ O6) as [O7 S7]. pose proof (step_trans _ _ _ _ _ _ S6 S7) as [K7 [F7 B7]].
        split; [apply (keep_le _ (bnd s5)); [lia|exact K7]|]. split; [|split; [reflexivity|split; [|exact O7]]].
        + destruct (Nat.eq_dec dpc (bnd s5)) as [Eq|Eq]; [rewrite Eq; exact F7|]. apply (kp_f _ _ _ _ _ K7). lia.
        + change (pending (append_instr INop s5) = []). eapply OK_pend; eauto. }
    destruct X6 as [f6 [K6 [Fd [A6 [Pe6 Q6]]]]].
    assert (K46 : keep (length (instrs s4)) s4 f4 s6 f6).
    { eapply keep_trans; [apply le_n|exact K5|]. rewrite <- Ep. exact K6. }
    assert (K36 : keep (length (instrs s3)) s3 f2 s6 f6) by (eapply keep_trans; [|exact K4|exact K46]; rewrite I3; lia).
    destruct (select_end exit H s3 f2 s6 f6 cur (length (instrs s1)) cv nt tgts dpc gotos) as [Ks [Qs [As Ls]]]; auto.
    { rewrite I3. lia. }
    { intros h Ih. pose proof (ok_holes _ _ _ _ O1 h Ih) as Hb. unfold bnd in Hb. pose proof (ok_act _ _ _ _ O1) as Ac1.
      destruct (active s1); [destruct Ac1|]; lia. }
    { pose proof (kp_len _ _ _ _ _ K46) as L46. pose proof (kp_len _ _ _ _ _ K6) as L56. intros q [<-|Iq].
      - split; [lia|]. congruence.
      - destruct (T4 q Iq) as [T5 T6]. split; [lia|]. rewrite (kp_f _ _ _ _ _ K46) by auto. auto. }
    { intros g Ig. destruct (G4 g Ig) as [G5 G6]. split; auto. eapply post_keep; [exact K46| |exact G6]. eapply post_lt; eauto. }
    { destruct exit; auto. }
    match goal with H : context [release (Some cv) ?x] |- _ => set (s7 := x) in * end.
    destruct (release (Some cv) s7) as [s8|] eqn:E8; [|discriminate]. injection E as <- <-.
    pose proof (release_same _ _ _ E8) as Sm8. exists f6.
    assert (Ls' : length (instrs s1) < length (instrs s7)).
    { change (length (instrs s1) < length (instrs s7)). rewrite Ls. pose proof (kp_len _ _ _ _ _ K46). lia. }
    assert (Bs : bnd s <= length (instrs s1)).
    { destruct S1 as [_ [_ B1]]. unfold bnd in B1 at 2. pose proof (ok_act _ _ _ _ O1) as Ac1. destruct (active s1); [destruct Ac1|]; lia. }
    split; [|destruct exit; [split; [eapply same_Done; eauto|]|eapply same_OK; eauto]].
    + pose proof (step_trans _ _ _ _ _ _ S1 (step_trans _ _ _ _ _ _ S2 (same_step _ _ f2 Sm3))) as [Ka [Fa Ba]].
      assert (K37 : keep (length (instrs s1)) s3 f2 s7 f6) by (eapply keep_trans; [|eapply keep_le; [|exact K36]|exact Ks]; rewrite ?I3; lia).
      eapply step_trans; [|apply same_step; exact Sm8]. split; [|split].
      * eapply keep_trans; [|exact Ka|exact K37]. exact Bs.
      * rewrite <- Fa. apply (kp_f _ _ _ _ _ K36). rewrite I3. lia.
      * unfold bnd at 2. rewrite As. lia.
    + destruct Sm8 as [Si _]. rewrite Si. pose proof (kp_len _ _ _ _ _ (step_keep _ _ _ _ S1)). lia.
  - (* access *)
    destruct (compile k false o s) as [[[v|] s1]|] eqn:E1; try discriminate.
    destruct (IH H false o s f cur _ _ O E1) as [f1 [S1 O1]]; [discriminate|].
    destruct (new_local s1) as [d s2] eqn:N. cbv zeta in E. destruct (release (Some v) _) as [s3|] eqn:E3; [|discriminate]. injection E as <- <-.
    apply (finish_after H exit s f s1 f1 cur d s2 (IAccess isS v t d)); auto; [repeat constructor|]. eapply release_same; eauto.
  - (* func *)
    destruct (merge_func scope b) as [nargs b'] eqn:M. destruct (get_vars scope s) as [svs|]; [|discriminate].
    unfold push_block in E. cbv zeta in E.
    pose proof (cl_block _ (ok_clean _ _ _ _ O)) as Cb.
    cbn [with_blocks bstack bnext] in E.
    destruct (compile k true b' _) as [[rf fs]|] eqn:E1; [|discriminate].
    destruct (IH [] true b' _ _ _ _ _ (init_OK nargs (length scope) (bnext s) (bnext s :: bstack s) (S (bnext s)) (Nat.lt_succ_diag_r _)) E1) as [ff [Sf [Df Lf]]]; [reflexivity|].
    destruct (exit_block true fs) as [fs1|] eqn:E2; [|discriminate]. destruct (release rf fs1) as [fs2|] eqn:E3; [|discriminate].
    destruct (free_scope fs2) as [fs3|]; [|discriminate].
    pose proof (same_trans _ _ _ (exit_block_same _ _ E2) (release_same _ _ _ E3)) as Smf.
    match goal with H : context [new_local ?x] |- _ => set (s2 := x) in *; destruct (new_local s2) as [d s3] eqn:N end.
    injection E as <- <-.
    destruct Sf as [Kf [Ff _]]. pose proof (kp_bnext _ _ _ _ _ Kf) as Bf. pose proof (kp_block _ _ _ _ _ Kf) as Bk. cbn in Bf, Bk.
    assert (Bn2 : bnext fs2 = bnext fs) by apply Smf.
    assert (Bal : all_balanced (bnext fs2) (finish_code nargs (length scope) fs2)).
    { apply (finish_balanced fs2 ff); [eapply same_Done; eauto| |].
      - cbn in Ff. rewrite Ff. destruct Smf as (_ & _ & _ & Bb & _). rewrite Bb, Bk. auto.
      - cbn in Lf. destruct Smf as (Bi & _). rewrite Bi. auto. }
    destruct (with_blocks_OK H s f cur (bstack fs2) (bnext fs2) O) as [O2 S2]; [lia|].
    assert (Es2 : with_blocks (bstack fs2) (bnext fs2) s = s2) by reflexivity. rewrite Es2 in *.
    apply (finish_after H exit s f s2 f cur d s3 (IFunc d (bnext s - block s3) (finish_code nargs (length scope) fs2) svs)); auto; [|apply same_refl].
    split; [constructor|]. cbn [snd]. unfold new_local in N. injection N as _ <-. cbn [s2 with_slots with_blocks block bnext]. unfold s2. cbn.
    split; [|exact Bal]. destruct Smf as (_ & _ & _ & Bb & _). rewrite Bb, Bk. lia.
  - (* apply *)
    destruct (spine (TApply g a) []) as [h args] eqn:Sp.
    destruct (compile k false h s) as [[[fv|] s1]|] eqn:E1; try discriminate.
    destruct (IH H false h s f cur _ _ O E1) as [f1 [S1 O1]]; [discriminate|].
    destruct (compile_list (compile k) (rev args) s1) as [[ravs s2]|] eqn:E2; [|discriminate].
    destruct (compile_list_OK _ IH H _ _ _ _ _ _ O1 E2) as [f2 [S2 O2]].
    pose proof (step_trans _ _ _ _ _ _ S1 S2) as S12. cbv zeta in E.
    destruct (if exit then (0, s2) else new_local s2) as [dest s3] eqn:E3.
    match goal with H : context [release (Some fv) ?x] |- _ => set (s4 := x) in * end.
    destruct (release (Some fv) s4) as [s5|] eqn:E5; [|discriminate].
    destruct (releases (rev ravs) s5) as [s6|] eqn:E6; [|discriminate]. injection E as <- <-.
    pose proof (same_trans _ _ _ (release_same _ _ _ E5) (releases_same _ _ _ E6)) as Sm. unfold s4 in *. clear s4.
    destruct exit.
    + injection E3 as _ <-.
      destruct (append_end H s2 f2 cur (ITail fv (rev ravs)) O2) as [f4 [S4 D4]]; [repeat constructor|reflexivity|auto|].
      exists f4.
      assert (D5 : Done H (new_basic_block (append_instr (ITail fv (rev ravs)) s2)) f4).
      { destruct D4 as [A1 A2 A3 A4 A5]. constructor; [destruct A1 as [U1 U2 U3]; constructor; auto|exact A2|apply le_n|exact A4|exact A5]. }
      assert (S5 : step (append_instr (ITail fv (rev ravs)) s2) f4 (new_basic_block (append_instr (ITail fv (rev ravs)) s2)) f4).
      { split; [constructor; auto|]. split; auto. apply (dn_bnd _ _ _ D4). }
      split; [eapply step_trans; [exact S12|]; eapply step_trans; [exact S4|]; eapply step_trans; [exact S5|]; apply same_step; exact Sm|].
      split; [eapply same_Done; eauto|]. destruct Sm as [Si _]. rewrite Si. cbn [new_basic_block with_code instrs].
      pose proof (kp_len _ _ _ _ _ (step_keep _ _ _ _ S12)).
      destruct (append_instr_bare (ITail fv (rev ravs)) s2) as [_ [_ B]]. apply (f_equal (@length _)) in B. rewrite app_length, !bare_len in B. cbn [length] in B. lia.
    + destruct (new_instr_OK H s2 f2 cur dest s3 (ICall fv (rev ravs) dest) O2) as [f4 [S4 O4]]; [exact E3|repeat constructor|reflexivity|auto|].
      destruct (new_basic_block_OK _ _ _ _ O4) as [O5 S5]. exists f4.
      split; [eapply step_trans; [exact S12|]; eapply step_trans; [exact S4|]; eapply step_trans; [exact S5|]; apply same_step; exact Sm|].
      eapply same_OK; eauto.
  - (* list *)
    destruct (compile_list (compile k) fs s) as [[vs s1]|] eqn:E1; [|discriminate].
    destruct (compile_list_OK _ IH H _ _ _ _ _ _ O E1) as [f1 [S1 O1]].
    destruct (new_local s1) as [d s2] eqn:N.
    destruct (releases vs _) as [s3|] eqn:E3; [|discriminate]. injection E as <- <-.
    apply (finish_after H exit s f s1 f1 cur d s2 (IList vs d)); auto; [repeat constructor|]. eapply releases_same; eauto.
  - (* literal *)
    destruct (new_local s) as [d s1] eqn:N. injection E as <- <-.
    apply (finish_OK H exit s f cur d s1 (ILiteral ls d)); auto; [repeat constructor|apply same_refl].
Qed.

(** ** C22 *)
Theorem blocks_balance : forall nargs e c nblocks, compile_code nargs e = Some (c, nblocks) -> all_balanced nblocks c.
Proof.
  intros nargs e c nblocks E. unfold compile_code in E. cbv zeta in E.
  destruct (compile (size e) true e (init_scope nargs 0 0 [0] 1)) as [[r s]|] eqn:E1; [|discriminate].
  destruct (compile_blocks _ [] true e _ _ _ _ _ (init_OK nargs 0 0 [0] 1 Nat.lt_0_1) E1) as [f [[K [F _]] [D L]]]; [reflexivity|].
  destruct (exit_block true s) as [s1|] eqn:E2; [|discriminate]. destruct (free_scope s1) as [s2|] eqn:E3; [|discriminate].
  destruct (bstack s2); [|discriminate]. injection E as <- <-.
  pose proof (exit_block_same _ _ E2) as Sm. unfold free_scope in E3. pose proof (pop_vars_same _ _ _ E3) as Sm2.
  assert (Bn : bnext s2 = bnext s1) by apply Sm2. rewrite Bn.
  apply (finish_balanced s1 f); [eapply same_Done; eauto| |].
  - cbn in F. rewrite F. destruct Sm as (_ & _ & _ & B & _). rewrite B, (kp_block _ _ _ _ _ K). reflexivity.
  - destruct Sm as (B & _). rewrite B. cbn in L. auto.
Qed.

(** ** Running compiled code *)

(** The profile calls of a run, oldest first, on the blocks of a profile thread, innermost
    first; [None]: leaving or replacing a block when there is none. *)
Definition ev_stack (e : prof_event) (st : list nat) : option (list nat) :=
  match e, st with
  | PEnter b, _ => Some (b :: st)
  | PReplace b, _ :: r => Some (b :: r)
  | PExit, _ :: r => Some r
  | PSample _, _ => Some st
  | _, _ => None
  end.
Fixpoint evs_stack (es : list prof_event) (st : list nat) : option (list nat) :=
  match es with
  | [] => Some st
  | e :: r => match ev_stack e st with Some st' => evs_stack r st' | None => None end
  end.

(** Values all of whose functions have compiled code. *)
Inductive vok : cval -> Prop :=
| vok_struct : forall fs, Forall vok fs -> vok (VStruct fs)
| vok_union : forall t a, vok a -> vok (VUnion t a)
| vok_func : forall n c blk ss nblocks, all_balanced nblocks c -> Forall vok ss -> vok (VFunc n c blk ss)
| vok_papp : forall n blk f xs, vok f -> Forall vok xs -> vok (VPapp n blk f xs)
| vok_ref : forall l, vok (VRef l)
| vok_type : vok VType.
Definition rok (o : option cval) : Prop := match o with Some v => vok v | None => True end.
Definition sok (s : cst) : Prop := Forall rok (refs s).

(** From state [s] to [s'] the profile calls [es] were made. *)
Definition made (s s' : cst) (es : list prof_event) : Prop := prof s' = rev es ++ prof s.

Lemma made_trans : forall a b c x y, made a b x -> made b c y -> made a c (x ++ y).
Proof. unfold made. intros a b c x y A B. rewrite B, A, rev_app_distr, app_assoc. reflexivity. Qed.
Lemma made_nil : forall s, made s s [].
Proof. reflexivity. Qed.
Lemma evs_app : forall a b st, evs_stack (a ++ b) st = match evs_stack a st with Some st' => evs_stack b st' | None => None end.
Proof. induction a as [|e a IH]; intros b st; cbn; auto. destruct (ev_stack e st); auto. Qed.

(** A call that returns leaves the blocks of its caller as they were. *)
Definition call_ok (callf : cst -> cval -> list cval -> cres) : Prop :=
  (forall s f xs g ys s', callf s f xs <> (Tail g ys, s')) /\
  forall s f xs v s', sok s -> vok f -> Forall vok xs -> callf s f xs = (Ret v, s') ->
  vok v /\ sok s' /\ exists es, made s s' es /\ forall st, evs_stack es st = Some st.

(** The end of a function that runs in the blocks [rst]: only one of them is left. *)
Definition ends (n : nat) (s s' : cst) : Prop :=
  exists es, made s s' es /\ forall rst rest, length rst = n -> exists b, evs_stack es (rst ++ rest) = Some (b :: rest).
Definition run_ok (n : nat) (s : cst) (r : cres) : Prop :=
  match r with
  | (Ret v, s') => vok v /\ sok s' /\ ends n s s'
  | (Tail g ys, s') => vok g /\ Forall vok ys /\ sok s' /\ ends n s s'
  | _ => True
  end.

Lemma strict_fuel_vok : forall k r v w, Forall rok r -> vok v -> strict_fuel k r v = SVal w -> vok w.
Proof.
  induction k as [|k IH]; intros r v w R V E; destruct v; cbn in E; try (injection E as <-; exact V);
    (destruct (nth_error r l) as [[v'|]|] eqn:Q; try discriminate).
  apply (IH r v' w); auto. apply nth_error_In in Q. rewrite Forall_forall in R. apply (R _ Q).
Qed.
Lemma unwrap_fuel_vok : forall k r v w, Forall rok r -> vok v -> unwrap_fuel k r v = Some w -> vok w.
Proof.
  induction k as [|k IH]; intros r v w R V E; destruct v; cbn in E; try (injection E as <-; exact V);
    (destruct (nth_error r l) as [[v'|]|] eqn:Q; try discriminate); try (injection E as <-; exact V).
  apply (IH r v' w); auto. apply nth_error_In in Q. rewrite Forall_forall in R. apply (R _ Q).
Qed.
Lemma assign_sok : forall s r v s', sok s -> vok v -> assign_ref s r v = Some (Some s') -> sok s' /\ prof s' = prof s.
Proof.
  intros s r v s' S V E. unfold assign_ref in E. destruct r; try discriminate.
  destruct (unwrap_fuel (length (refs s)) (refs s) v) as [w|] eqn:U; [|discriminate].
  pose proof (unwrap_fuel_vok _ _ _ _ S V U) as W.
  destruct w; try (injection E as <-; split; auto; apply Forall_set_nth; auto; fail).
  destruct (l0 =? l); [discriminate|]. injection E as <-. split; auto. apply Forall_set_nth; auto.
Qed.
Lemma list_vok : forall xs, Forall vok xs -> vok (list_value xs).
Proof. induction 1; cbn; repeat constructor; auto. Qed.
Lemma literal_vok : forall ls, vok (literal_value ls).
Proof. intros ls. apply list_vok. induction ls; cbn; repeat constructor; auto. Qed.

Lemma get_vok : forall ss xs l v w, Forall vok ss -> Forall vok xs -> Forall rok l -> get ss xs l v = Some w -> vok w.
Proof.
  intros ss xs l [i|i|i] w S X L E; cbn in E.
  - rewrite Forall_forall in S. apply S. eapply nth_error_In; eauto.
  - rewrite Forall_forall in X. apply X. eapply nth_error_In; eauto.
  - destruct (nth_error l i) as [[y|]|] eqn:Q; try discriminate. injection E as <-. rewrite Forall_forall in L. apply (L _ (nth_error_In _ _ Q)).
Qed.
Lemma gets_vok : forall ss xs l vs ws, Forall vok ss -> Forall vok xs -> Forall rok l -> gets ss xs l vs = Some ws -> Forall vok ws.
Proof.
  intros ss xs l. induction vs as [|v vs IH]; intros ws S X L E; cbn in E; [injection E as <-; auto|].
  destruct (get ss xs l v) as [x|] eqn:G; [|discriminate]. destruct (gets ss xs l vs) as [ys|]; [|discriminate]. injection E as <-.
  constructor; auto. eapply get_vok; [| | |exact G]; auto.
Qed.

Lemma do_ops_made : forall blk ops s, refs (do_ops blk ops s) = refs s /\ exists es, made s (do_ops blk ops s) es /\
  forall base st st' rst rest, ops_stack base ops st = Some st' -> length rst = length st ->
    exists rst', evs_stack es (rst ++ rest) = Some (rst' ++ rest) /\ length rst' = length st'.
Proof.
  intros blk. induction ops as [|o ops IH]; intros s.
  - split; auto. exists []. split; [apply made_nil|]. intros base st st' rst rest E L. injection E as <-. exists rst. auto.
  - unfold do_ops. cbn [fold_left]. destruct (IH (do_op blk s o)) as [R [es [M F]]]. change (fold_left (do_op blk) ops (do_op blk s o)) with (do_ops blk ops (do_op blk s o)). split; [rewrite R; reflexivity|].
    exists ((match o with OEnter a => PEnter (blk + a) | OReplace a => PReplace (blk + a) | OExit => PExit | OSample t => PSample t end) :: es).
    split; [apply (made_trans _ (do_op blk s o) _ [_] es); auto; reflexivity|].
    intros base st st' rst rest E L. cbn [ops_stack] in E. destruct (op_stack base o st) as [stm|] eqn:Q; [|discriminate].
    assert (X : exists rm, ev_stack (match o with OEnter a => PEnter (blk + a) | OReplace a => PReplace (blk + a) | OExit => PExit | OSample t => PSample t end) (rst ++ rest) = Some (rm ++ rest) /\ length rm = length stm).
    { destruct o as [a|a| |t]; cbn in *.
      - destruct st; [discriminate|]. injection Q as <-. exists (blk + a :: rst). cbn in *. auto.
      - destruct st; [discriminate|]. injection Q as <-. destruct rst as [|x rst]; [discriminate|]. exists (blk + a :: rst). cbn in *. auto.
      - destruct st as [|x [|y st]]; try discriminate. injection Q as <-. destruct rst as [|x' rst]; [discriminate|]. exists rst. cbn in *. auto.
      - injection Q as <-. exists rst. auto. }
    destruct X as [rm [X1 X2]]. cbn [evs_stack]. rewrite X1. apply (F base stm); auto.
Qed.

Lemma put_next : forall pc d x l s r, put pc d x l s = r -> r = Stop Crash s \/ r = Next pc (set_nth d (Some x) l) s.
Proof. intros pc d x l s r <-. unfold put. destruct (d <? length l); auto. Qed.

(** One instruction: after its profile operations the calls it makes are balanced. *)
Lemma exec_ok : forall callf blk ss xs i pc l s, call_ok callf -> Forall vok ss -> Forall vok xs -> Forall rok l -> sok s ->
  (forall d off c' sc, i = IFunc d off c' sc -> exists nb, all_balanced nb c') ->
  match exec callf blk ss xs i pc l s with
  | Next pc' l' s' => In pc' (succs pc i) /\ Forall rok l' /\ sok s' /\ exists es, made s s' es /\ forall st, evs_stack es st = Some st
  | Stop (Ret v) s' => exits i /\ vok v /\ s' = s
  | Stop (Tail g ys) s' => exits i /\ vok g /\ Forall vok ys /\ s' = s
  | Stop _ _ => True
  end.
Proof.
  intros callf blk ss xs i pc l s [_ C] Vs X L Sk Fn.
  assert (Nil : exists es, made s s es /\ forall st, evs_stack es st = Some st) by (exists []; split; [apply made_nil|auto]).
  assert (Put : forall d x s1, vok x -> sok s1 -> (exists es, made s s1 es /\ forall st, evs_stack es st = Some st) -> succs pc i = [S pc] ->
    match put (S pc) d x l s1 with
    | Next pc' l' s' => In pc' (succs pc i) /\ Forall rok l' /\ sok s' /\ exists es, made s s' es /\ forall st, evs_stack es st = Some st
    | Stop (Ret v) s' => exits i /\ vok v /\ s' = s
    | Stop (Tail g ys) s' => exits i /\ vok g /\ Forall vok ys /\ s' = s
    | Stop _ _ => True
    end).
  { intros d x s1 V S1 M Su. unfold put. destruct (d <? length l); auto. rewrite Su. split; [left; auto|]. split; auto. apply Forall_set_nth; auto. }
  destruct i; cbn [exec].
  - destruct (gets ss xs l args) as [ys|] eqn:G; auto. apply Put; auto. constructor. eapply gets_vok; [| | |exact G]; auto.
  - destruct (get ss xs l arg) as [y|] eqn:G; auto. apply Put; auto. constructor. eapply get_vok; [| | |exact G]; auto.
  - destruct (get ss xs l obj) as [y|] eqn:G; auto. pose proof (get_vok _ _ _ _ _ Vs X L G) as Vy.
    destruct (strict_value (refs s) y) as [w| |] eqn:Q; auto; [|unfold fail; destruct (dest <? length l); exact I]. pose proof (strict_fuel_vok _ _ _ _ Sk Vy Q) as Vw.
    destruct w; auto.
    + destruct is_struct; auto. destruct (nth_error fields tag) as [z|] eqn:Z; auto. apply Put; auto.
      inversion Vw as [fs F| | | | |]; subst. rewrite Forall_forall in F. apply F. eapply nth_error_In; eauto.
    + destruct is_struct; auto. destruct (tag0 =? tag); [|unfold fail; destruct (dest <? length l); exact I]. apply Put; auto. inversion Vw; auto.
  - destruct (get ss xs l condition) as [y|] eqn:G; auto. destruct (strict_value (refs s) y) as [w| |] eqn:Q; auto. destruct w; auto.
    destruct (select_target num_tags targets default tag) as [q|] eqn:T; auto. split; [|auto].
    (* the target is one of the successors *)
    clear -T. unfold select_target in T. destruct targets as [|t0 tl]; [discriminate|]. destruct (tag <? num_tags); [|discriminate]. revert T. generalize (t0 :: tl). intros tg.
    generalize (length tg) at 2. generalize 0. generalize (length tg). cbn [succs].
    induction n as [|n IH]; intros lo hi T; cbn [select_search] in T; destruct (lo <? hi) eqn:Lt; try (injection T as <-; left; reflexivity); try discriminate.
    destruct (nth_error tg ((lo + hi) / 2)) as [[mt mq]|] eqn:E; [|discriminate]. destruct (tag =? mt).
    + injection T as <-. right. apply in_map_iff. exists (mt, mq). split; auto. eapply nth_error_In; eauto.
    + destruct (tag <? mt); eauto.
  - split; [left; auto|]. auto.
  - destruct (gets ss xs l scope) as [ys|] eqn:G; auto. destruct (code_num_statics c <=? length ys); auto. apply Put; auto.
    destruct (Fn _ _ _ _ eq_refl) as [nb B]. apply (vok_func _ _ _ _ nb); auto.
    pose proof (gets_vok _ _ _ _ _ Vs X L G) as Vy. rewrite Forall_forall in *. intros z Iz. apply Vy. rewrite <- (firstn_skipn (code_num_statics c) ys). apply in_or_app. auto.
  - destruct (get ss xs l func) as [fv|] eqn:G; auto. destruct (gets ss xs l args) as [ys|] eqn:G2; auto.
    destruct (dest <? length l); auto. destruct (callf s fv ys) as [o s'] eqn:Cl. destruct o; auto.
    destruct (C s fv ys v s') as [V1 [S1 M1]]; auto; [eapply get_vok; [| | |exact G]; auto|eapply gets_vok; [| | |exact G2]; auto|].
    apply Put; auto.
  - destruct (get ss xs l func) as [fv|] eqn:G; auto. destruct (strict_value (refs s) fv) as [w| |]; auto. destruct (num_args_of w); auto.
    destruct (gets ss xs l args) as [ys|] eqn:G2; auto. split; [exact I|]. split; [eapply get_vok; [| | |exact G]; auto|]. split; [eapply gets_vok; [| | |exact G2]; auto|auto].
  - destruct (get ss xs l source) as [y|] eqn:G; auto. apply Put; auto. eapply get_vok; [| | |exact G]; auto.
  - apply Put; auto; [constructor|]. unfold sok. cbn. apply Forall_app. split; auto. repeat constructor.
  - destruct (get ss xs l (Local ref)) as [rv|] eqn:G; auto. destruct (get ss xs l value) as [y|] eqn:G2; auto.
    destruct (assign_ref s rv y) as [[s'|]|] eqn:A; auto. destruct (assign_sok s rv y s') as [S1 P1]; auto; [eapply get_vok; [| | |exact G2]; auto|].
    split; [left; auto|]. split; auto. split; auto. exists []. split; [exact P1|auto].
  - destruct (get ss xs l result) as [y|] eqn:G; auto. split; [exact I|]. split; auto. eapply get_vok; [| | |exact G]; auto.
  - apply Put; auto. constructor.
  - destruct (gets ss xs l args) as [ys|] eqn:G; auto. apply Put; auto. apply list_vok. eapply gets_vok; [| | |exact G]; auto.
  - apply Put; auto. apply literal_vok.
  - split; [left; auto|]. auto.
Qed.

Lemma loop_ok : forall callf blk ss xs c nblocks, call_ok callf -> Forall vok ss -> Forall vok xs -> all_balanced nblocks c ->
  forall k pc l s st, visits c pc st -> Forall rok l -> sok s ->
  run_ok (length st) s (loop callf blk ss xs k (code_instrs c) pc l s).
Proof.
  intros callf blk ss xs c nblocks C S X B. inversion B as [c' [Bal _] Nest]; subst c'.
  induction k as [|k IH]; intros pc l s st V L Sk; cbn [loop]; [exact I|].
  destruct (Bal pc st V) as [ops [i [st' [E1 [E2 [E3 E4]]]]]]. rewrite E1.
  destruct (do_ops_made blk ops s) as [R [es [M F]]].
  assert (Sk1 : sok (do_ops blk ops s)) by (unfold sok; rewrite R; exact Sk).
  pose proof (exec_ok callf blk ss xs i pc l (do_ops blk ops s) C S X L Sk1
    ltac:(intros d off c1 sc ->; exists nblocks; apply (Nest ops d off c1 sc); eapply nth_error_In; exact E1)) as Ex.
  assert (End : forall s', s' = do_ops blk ops s -> exits i -> ends (length st) s s').
  { intros s' -> Ei. exists es. split; auto. intros rst rest Lr. destruct (F _ _ _ rst rest E2 Lr) as [rst' [F1 F2]]. rewrite (E4 Ei) in F2.
    destruct rst' as [|b [|b' rst']]; cbn in F2; try lia. exists b. exact F1. }
  destruct (exec callf blk ss xs i pc l (do_ops blk ops s)) as [pc' l' s'|[v|g ys| | |] s'] eqn:Q; try exact I.
  - destruct Ex as [Iq [L' [S' [es2 [M2 F2]]]]].
    pose proof (IH pc' l' s' st' (visits_next c pc st ops i st' pc' V E1 E2 Iq) L' S') as R'.
    assert (Glue : forall s'', ends (length st') s' s'' -> ends (length st) s s'').
    { intros s'' [es3 [M3 F3]]. exists (es ++ es2 ++ es3). split; [eapply made_trans; [exact M|]; eapply made_trans; eauto|].
      intros rst rest Lr. destruct (F _ _ _ rst rest E2 Lr) as [rst' [F4 F5]]. rewrite evs_app, F4, evs_app, F2. apply F3. exact F5. }
    unfold run_ok in *. destruct (loop callf blk ss xs k (code_instrs c) pc' l' s') as [[v|g ys| | |] s'']; auto.
    + destruct R' as [R1 [R2 R3]]. split; auto.
    + destruct R' as [R1 [R2 [R3 R4]]]. split; auto.
  - destruct Ex as [Ei [Vv Es]]. split; auto. split; [subst s'; auto|]. auto.
  - destruct Ex as [Ei [Vg [Vy Es]]]. split; auto. split; auto. split; [subst s'; auto|]. auto.
Qed.

Lemma ends_call : forall s s', (exists es, made s s' es /\ forall st, evs_stack es st = Some st) -> ends 1 s s'.
Proof.
  intros s s' [es [M F]]. exists es. split; auto. intros rst rest L. rewrite F. destruct rst as [|b [|b' rst]]; cbn in L; try lia. exists b. reflexivity.
Qed.
Lemma ends_trans : forall n a b c, ends n a b -> ends 1 b c -> ends n a c.
Proof.
  intros n a b c [es [M F]] [es2 [M2 F2]]. exists (es ++ es2). split; [eapply made_trans; eauto|]. intros rst rest L.
  destruct (F rst rest L) as [x E]. rewrite evs_app, E. apply (F2 [x] rest). reflexivity.
Qed.
Lemma ends_same : forall n a b b', ends n a b -> prof b' = prof b -> ends n a b'.
Proof. intros n a b b' [es [M F]] E. exists es. split; auto. unfold made. rewrite E. exact M. Qed.
Lemma ends_start : forall n a a' b, ends n a b -> prof a' = prof a -> ends n a' b.
Proof. intros n a a' b [es [M F]] E. exists es. split; auto. unfold made. rewrite E. exact M. Qed.
Lemma pop_made : forall r s o s', pop_with r s = (o, s') -> (o = r /\ refs s' = refs s /\ prof s' = prof s) \/ o = @Crash code.
Proof.
  intros r s o s' E. unfold pop_with, pop_frame in E. destruct (depth s); injection E as <- <-; auto.
Qed.

Definition tail_ok (t : cst -> cval -> list cval -> cres) : Prop :=
  forall s g xs v s', sok s -> vok g -> Forall vok xs -> t s g xs = (Ret v, s') -> vok v /\ sok s' /\ ends 1 s s'.

Lemma forall_skipn : forall {A} (P : A -> Prop) n l, Forall P l -> Forall P (skipn n l).
Proof. intros A P n l F. rewrite <- (firstn_skipn n l) in F. apply Forall_app in F. apply F. Qed.
Lemma forall_firstn : forall {A} (P : A -> Prop) n l, Forall P l -> Forall P (firstn n l).
Proof. intros A P n l F. rewrite <- (firstn_skipn n l) in F. apply Forall_app in F. apply F. Qed.

Lemma partial_vok : forall fn f xs, vok f -> Forall vok xs -> vok (partial_apply fn f xs).
Proof. intros fn f xs F X. unfold partial_apply. destruct (num_args_of fn); constructor; auto. Qed.

Lemma run_fn_ok : forall callf, call_ok callf -> forall s fn xs, sok s -> vok fn -> Forall vok xs -> run_ok 1 s (run_fn interpret callf s fn xs).
Proof.
  intros callf C s fn xs Sk V X. destruct fn; cbn [run_fn]; try exact I.
  - inversion V as [| |n c blk ss nb B Ss| | |]; subst. unfold interpret.
    apply (loop_ok callf block statics (firstn num_args xs) b nb C Ss (forall_firstn _ _ _ X) B _ 0 _ s [code_block b]); auto.
    + constructor.
    + clear. induction (code_num_locals b); cbn; constructor; cbn; auto.
  - inversion V as [| | |n blk f ys Vf Vy| |]; subst. destruct C as [C1 C].
    destruct (callf s fn (args ++ firstn num_args xs)) as [o s'] eqn:E. unfold run_ok. destruct o; auto.
    + destruct (C s fn (args ++ firstn num_args xs) v s') as [V1 [S1 M1]]; auto; [apply Forall_app; split; auto; apply forall_firstn; auto|].
      split; auto. split; auto. apply ends_call. exact M1.
    + exfalso. eapply C1; eauto.
Qed.

Lemma calls_ok : forall n, call_ok (icall n) /\ tail_ok (tail_call interpret n).
Proof.
  induction n as [|n [IHc IHt]].
  - split; [split; [intros s f xs g ys s' E; discriminate|intros s f xs v s' _ _ _ E; discriminate]|intros s g xs v s' _ _ _ E; discriminate].
  - split.
    + split.
      * intros s f xs g ys s' E. pose proof (proj1 (FuncProps.call_balanced code interpret CodeProps.interpret_good (S n)) s f xs) as Bl.
        unfold icall in E. rewrite E in Bl. exact Bl.
      * intros s f xs v s' Sk Vf Vx E. unfold icall in E. rewrite FuncProps.call_S in E. cbv zeta in E.
        destruct (strict_value (refs s) f) as [fn| |] eqn:St; try discriminate.
        pose proof (strict_fuel_vok _ _ _ _ Sk Vf St) as Vn.
        destruct (num_args_of fn) as [na|] eqn:Na; [|discriminate].
        destruct (length xs <? na).
        { injection E as <- <-. split; [apply partial_vok; auto|]. split; auto. exists []. split; auto. apply made_nil. }
        set (s0 := push_frame (log (PEnter (block_of fn)) s)) in *.
        assert (Sk0 : sok s0) by exact Sk.
        pose proof (run_fn_ok (icall n) IHc s0 fn xs Sk0 Vn Vx) as Rn.
        change (call interpret n) with (icall n) in E.
        destruct (run_fn interpret (icall n) s0 fn xs) as [r s2]. 
        assert (Fin : forall s3, vok v -> sok s3 -> ends 1 s0 s3 -> s' = log PExit s3 -> vok v /\ sok s' /\ exists es, made s s' es /\ forall st, evs_stack es st = Some st).
        { intros s3 Vv S3 [es [M F]] ->. split; auto. split; [exact S3|]. exists (PEnter (block_of fn) :: es ++ [PExit]). split.
          - apply (made_trans s (log (PEnter (block_of fn)) s) _ [PEnter (block_of fn)]); [reflexivity|].
            apply (made_trans _ s3 _ es [PExit]); [exact M|reflexivity].
          - intros st. cbn [evs_stack ev_stack]. rewrite evs_app. destruct (F [block_of fn] st eq_refl) as [b Eb]. cbn [app] in Eb. rewrite Eb. reflexivity. }
        destruct r as [w|g ys| | |]; try discriminate.
        -- destruct Rn as [Vw [S2 En]]. destruct (skipn na xs) as [|u us] eqn:Un.
           ++ destruct (pop_with (Ret w) s2) as [o s3] eqn:P. injection E as -> <-. destruct (pop_made _ _ _ _ P) as [[Q [R1 R2]]|Q]; [|discriminate].
              injection Q as <-. apply (Fin s3); auto; [unfold sok; rewrite R1; auto|eapply ends_same; eauto].
           ++ destruct (pop_frame s2) as [s2'|] eqn:P; [|discriminate].
              destruct (icall n s2' w (u :: us)) as [o s3] eqn:Q. injection E as -> <-.
              assert (R : refs s2' = refs s2 /\ prof s2' = prof s2) by (unfold pop_frame in P; destruct (depth s2); [discriminate|]; injection P as <-; auto).
              destruct R as [R1 R2].
              destruct (proj2 IHc s2' w (u :: us) v s3) as [Vv [S3 M3]]; auto; [unfold sok; rewrite R1; auto|rewrite <- Un; apply forall_skipn; auto|].
              apply (Fin s3); auto. eapply ends_trans; [eapply ends_same; [exact En|exact R2]|]. apply ends_call. exact M3.
        -- destruct Rn as [Vg [Vy [S2 En]]]. destruct (tail_call interpret n s2 g (ys ++ skipn na xs)) as [o s3] eqn:Q. injection E as -> <-.
           destruct (IHt s2 g (ys ++ skipn na xs) v s3) as [Vv [S3 M3]]; auto; [apply Forall_app; split; auto; apply forall_skipn; auto|].
           apply (Fin s3); auto. eapply ends_trans; eauto.
        -- destruct (pop_with Abort s2) as [o s3] eqn:P. injection E as -> <-. destruct (pop_made _ _ _ _ P) as [[Q _]|Q]; discriminate.
    + intros s g xs v s' Sk Vg Vx E. rewrite FuncProps.tail_call_S in E. cbv zeta in E.
      destruct (strict_value (refs s) g) as [fn| |] eqn:St; try discriminate.
      pose proof (strict_fuel_vok _ _ _ _ Sk Vg St) as Vn.
      destruct (num_args_of fn) as [na|] eqn:Na; [|discriminate].
      assert (Refl : ends 1 s s) by (apply ends_call; exists []; split; auto; apply made_nil).
      destruct (length xs <? na).
      { destruct (pop_made _ _ _ _ E) as [[Q [R1 R2]]|Q]; [|discriminate]. injection Q as ->. split; [apply partial_vok; auto|].
        split; [unfold sok; rewrite R1; auto|]. eapply ends_same; eauto. }
      set (s0 := log (PReplace (block_of fn)) s) in *.
      assert (Sk0 : sok s0) by exact Sk.
      assert (E0 : ends 1 s s0).
      { exists [PReplace (block_of fn)]. split; [reflexivity|]. intros rst rest L. destruct rst as [|b [|b' rst]]; cbn in L; try lia. exists (block_of fn). reflexivity. }
      pose proof (run_fn_ok (icall n) IHc s0 fn xs Sk0 Vn Vx) as Rn.
      change (call interpret n) with (icall n) in E.
      destruct (run_fn interpret (icall n) s0 fn xs) as [r s2].
      destruct r as [w|h ys| | |]; try discriminate.
      * destruct Rn as [Vw [S2 En]]. destruct (skipn na xs) as [|u us] eqn:Un.
        -- destruct (pop_made _ _ _ _ E) as [[Q [R1 R2]]|Q]; [|discriminate]. injection Q as ->. split; auto.
           split; [unfold sok; rewrite R1; auto|]. eapply ends_trans; [exact E0|]. eapply ends_same; eauto.
        -- destruct (icall n s2 w (u :: us)) as [o s3] eqn:Q. destruct o; try discriminate.
           ++ destruct (pop_made _ _ _ _ E) as [[Q2 [R1 R2]]|Q2]; [|discriminate]. injection Q2 as ->.
              destruct (proj2 IHc s2 w (u :: us) v0 s3) as [Vv [S3 M3]]; auto; [rewrite <- Un; apply forall_skipn; auto|].
              split; auto. split; [unfold sok; rewrite R1; auto|]. eapply ends_same; [|exact R2]. eapply ends_trans; [exact E0|]. eapply ends_trans; [exact En|]. apply ends_call. exact M3.
           ++ destruct (pop_made _ _ _ _ E) as [[Q2 _]|Q2]; discriminate.
      * destruct Rn as [Vh [Vy [S2 En]]]. destruct (IHt s2 h (ys ++ skipn na xs) v s') as [Vv [S3 M3]]; auto; [apply Forall_app; split; auto; apply forall_skipn; auto|].
        split; auto. split; auto. eapply ends_trans; [exact E0|]. eapply ends_trans; eauto.
      * destruct (pop_made _ _ _ _ E) as [[Q2 _]|Q2]; discriminate.
Qed.

(** A call that returns, of functions made by compiled code, makes balanced profile calls:
    whatever the blocks [st] of the thread, it never leaves or replaces one of them, and in
    the end they are as they were. *)
Theorem calls_balance : forall n s f xs v s', sok s -> vok f -> Forall vok xs -> icall n s f xs = (Ret v, s') ->
  exists es, prof s' = rev es ++ prof s /\ forall st, evs_stack es st = Some st.
Proof. intros n s f xs v s' Sk Vf Vx E. destruct (calls_ok n) as [[_ C] _]. destruct (C s f xs v s' Sk Vf Vx E) as [_ [_ M]]. exact M. Qed.

(** In particular of a module, on any such arguments. *)
Corollary module_calls_balance : forall nargs e c nblocks blk xs n v s' s, compile_code nargs e = Some (c, nblocks) ->
  sok s -> Forall vok xs -> icall n s (VFunc nargs c blk []) xs = (Ret v, s') ->
  exists es, prof s' = rev es ++ prof s /\ forall st, evs_stack es st = Some st.
Proof.
  intros nargs e c nblocks blk xs n v s' s E Sk Vx R. eapply calls_balance; eauto. apply (vok_func _ _ _ _ nblocks); auto. eapply blocks_balance; eauto.
Qed.

(** ** An example: a let with a call in a select, in a function *)
Definition ex_blocks : tc :=
  TFunc [] (TLet false [TSelect (TVar (Arg 0)) 2 [(0, TUnion 1 (TStruct []))] (TVar (Arg 0))]
    (TSelect (TVar (Local 0)) 2 [(1, TApply (TFunc [] (TVar (Arg 0))) (TVar (Local 0)))] (TVar (Arg 0)))).
Definition ex_inner : code :=
  Code 1 0 3 1
    [([OEnter 1; OSample 1], ISelect (Arg 0) 2 [(0, 1)] 5);
     ([OEnter 2; OSample 3; OExit; OSample 1], IStruct [] 1);
     ([], IUnion 1 (Local 1) 2); ([], ICopy (Local 2) 0); ([], IGoto 7);
     ([OEnter 3; OSample 1; OExit; OSample 1], ICopy (Arg 0) 0); ([], INop);
     ([OExit; OSample 1], ISelect (Local 0) 2 [(1, 8)] 10);
     ([OReplace 4; OSample 2], IFunc 1 5 (Code 1 0 0 6 [([OSample 1], IReturn (Arg 0))]) []);
     ([], ITail (Local 1) [Local 0]);
     ([OReplace 6; OSample 1], IReturn (Arg 0))].
Example ex_compiled : compile_code 0 ex_blocks =
  Some (Code 0 0 1 0 [([OSample 2], IFunc 0 1 ex_inner []); ([], IReturn (Local 0))], 8).
Proof. vm_compute. reflexivity. Qed.
(** Both branches come to instruction 7 in the block of the let's definition (2), in that of
    the function (1); and its branches end in one block each. *)
Example ex_visits : visits ex_inner 7 [2; 1] /\ visits ex_inner 9 [5] /\ visits ex_inner 10 [1].
Proof.
  assert (V0 : visits ex_inner 0 [1]) by constructor.
  assert (V5 : visits ex_inner 5 [2; 1]) by (apply (visits_next _ 0 [1] [OEnter 1; OSample 1] (ISelect (Arg 0) 2 [(0, 1)] 5)); auto; left; auto).
  assert (V6 : visits ex_inner 6 [2; 1]) by (apply (visits_next _ 5 [2; 1] [OEnter 3; OSample 1; OExit; OSample 1] (ICopy (Arg 0) 0)); auto; left; auto).
  assert (V7 : visits ex_inner 7 [2; 1]) by (apply (visits_next _ 6 [2; 1] [] INop); auto; left; auto).
  assert (V8 : visits ex_inner 8 [1]) by (apply (visits_next _ 7 [2; 1] [OExit; OSample 1] (ISelect (Local 0) 2 [(1, 8)] 10)); auto; right; left; auto).
  assert (V10 : visits ex_inner 10 [1]) by (apply (visits_next _ 7 [2; 1] [OExit; OSample 1] (ISelect (Local 0) 2 [(1, 8)] 10)); auto; left; auto).
  split; auto. split; auto.
  apply (visits_next _ 8 [1] [OReplace 4; OSample 2] (IFunc 1 5 (Code 1 0 0 6 [([OSample 1], IReturn (Arg 0))]) [])); auto. left. auto.
Qed.
(** A call of the function returns, so that [calls_balance] applies to it. *)
Example ex_returns : exists s', icall 9 (mk_st [] 0 []) (VFunc 1 ex_inner 1 []) [VUnion 0 (VStruct [])] = (Ret (VUnion 1 (VStruct [])), s') /\
  rev (prof s') = [PEnter 1; PEnter 2; PSample 1; PEnter 3; PSample 3; PExit; PSample 1; PExit; PSample 1; PReplace 5; PSample 2; PReplace 6; PSample 1; PExit].
Proof. eexists. split; [vm_compute; reflexivity|vm_compute; reflexivity]. Qed.
