(** * C52: which functions the assembler can encode. *)
From Coq Require Import ZArith String List Arith Lia Bool.
From Verif Require Import PathModel PathProps LoadModel FuncModel CodeModel CodeProps CompileModel CompileEval LinkModel GenModel GenLabel GenCode GenProg AsmModel AsmSearch AsmCode AsmSafe AsmValid.
From Verif Require CheckSafeSpec GenSafe.
Import ListNotations.
Local Open Scope list_scope.
Notation length := List.length.

(** ** Specification: functions of ordinary size.  At most 512 local variables, and no more
    than 512 fields, arguments, elements of a list or variables a function captures; less than
    4096 variables of each kind, tags and profile blocks; letters of literals, arguments of
    samples less than 65536. *)
Definition small_var (v : var) : Prop := match v with Static i | Arg i | Local i => (Z.of_nat i < 4096)%Z end.
Definition small_vars (vs : list var) : Prop := (Z.of_nat (length vs) <= 512)%Z /\ Forall small_var vs.
Definition small_instr (i : instr) : Prop :=
  match i with
  | IStruct args dest | IList args dest => small_vars args /\ (Z.of_nat dest < 4096)%Z
  | IUnion tag arg dest => (Z.of_nat tag < 4096)%Z /\ small_var arg /\ (Z.of_nat dest < 4096)%Z
  | IAccess _ obj tag dest => small_var obj /\ (Z.of_nat tag < 4096)%Z /\ (Z.of_nat dest < 4096)%Z
  | ISelect cond _ targets _ => small_var cond /\ Forall (fun t => (Z.of_nat (fst t) < 4096)%Z) targets
  | IGoto _ | INop => True
  | IFunc dest offset c scope => (Z.of_nat dest < 4096)%Z /\ (Z.of_nat offset < 4096)%Z /\ small_vars scope
  | ICall func args dest => small_var func /\ small_vars args /\ (Z.of_nat dest < 4096)%Z
  | ITail func args => small_var func /\ small_vars args
  | ICopy src dest => small_var src /\ (Z.of_nat dest < 4096)%Z
  | IRef dest | IType dest => (Z.of_nat dest < 4096)%Z
  | IRefDef ref value => (Z.of_nat ref < 4096)%Z /\ small_var value
  | IReturn v => small_var v
  | ILiteral letters dest => (Z.of_nat (length letters) < 65536)%Z /\ (Z.of_nat dest < 4096)%Z
  end.
Definition small_op (o : prof_op) : Prop := match o with OEnter a | OReplace a => (Z.of_nat a < 4096)%Z | OSample a => (Z.of_nat a < 65536)%Z | OExit => True end.
Definition small_code (c : code) : Prop :=
  (Z.of_nat (code_num_locals c) <= 512)%Z /\ Forall (fun p => Forall small_op (fst p) /\ small_instr (snd p)) (code_instrs c).

(** ** Proofs *)
Definition line_enc (x : line) : Prop := match x with Ins i => encodable i = true | _ => True end.

Lemma stack_bytes_range : forall n, (Z.of_nat n <= 512)%Z -> (0 <= stack_bytes n <= 4096)%Z.
Proof. intros n L. unfold stack_bytes. pose proof (Z.div_le_mono (Z.of_nat n + 1) 513 2 ltac:(lia) ltac:(lia)). pose proof (Z.div_pos (Z.of_nat n + 1) 2 ltac:(lia) ltac:(lia)). change (513 / 2)%Z with 256%Z in *. lia. Qed.
Lemma imm12_stack : forall n, (Z.of_nat n <= 512)%Z -> imm12 (stack_bytes n) = true.
Proof.
  intros n L. pose proof (stack_bytes_range n L) as R. unfold imm12. destruct (Z.eq_dec (stack_bytes n) 4096) as [->|N]; [reflexivity|].
  apply orb_true_iff. left. apply andb_true_iff. rewrite !Z.leb_le. lia.
Qed.
Lemma imm12_nat : forall n, (Z.of_nat n < 4096)%Z -> imm12 (Z.of_nat n) = true.
Proof. intros n L. unfold imm12. apply orb_true_iff. left. apply andb_true_iff. rewrite !Z.leb_le. lia. Qed.
Lemma ldr_enc : forall i, (Z.of_nat i < 4096)%Z -> ((0 <=? zoff i) && (zoff i <=? 32760) && (zoff i mod 8 =? 0))%Z = true.
Proof. intros i L. replace (zoff i mod 8)%Z with 0%Z by (rewrite Z.mul_comm, Z.mod_mul; lia). rewrite !andb_true_iff, !Z.leb_le, Z.eqb_eq. lia. Qed.
Lemma mov_enc : forall n, (Z.of_nat n < 65536)%Z -> ((0 <=? Z.of_nat n) && (Z.of_nat n <=? 65535))%Z = true.
Proof. intros n L. rewrite !andb_true_iff, !Z.leb_le. lia. Qed.
Lemma get_enc : forall d v, small_var v -> line_enc (get_var d v).
Proof. intros d v H. destruct v; cbn [small_var get_var line_enc encodable] in *; apply ldr_enc; auto. Qed.
Lemma set_enc : forall d i, (Z.of_nat i < 4096)%Z -> line_enc (set_var d i).
Proof. intros d i H. cbn [set_var line_enc encodable]. apply ldr_enc. auto. Qed.
Lemma store_enc : forall r vs i, (Z.of_nat i + Z.of_nat (length vs) <= 4096)%Z -> Forall small_var vs -> Forall line_enc (store_args r i vs).
Proof.
  intros r. induction vs as [|v vs IH]; intros i L F; cbn [store_args]; [constructor|]. cbn [length] in L. inversion F; subst.
  constructor; [apply get_enc; auto|]. constructor; [cbn [line_enc encodable]; apply ldr_enc; lia|]. apply IH; auto. lia.
Qed.
Lemma search_enc : forall k f pc lo hi1 ts d label x label', emit_search k f pc lo hi1 ts d label = Some (x, label') -> Forall (fun t => (Z.of_nat (fst t) < 4096)%Z) ts -> Forall line_enc x.
Proof.
  assert (Hd : forall f z q, (Z.of_nat z < 4096)%Z -> Forall line_enc [Ins (CmpI X0 (Z.of_nat z)); Ins (Beq (LPc f q))]).
  { intros f z q L. constructor; [cbn [line_enc encodable]; rewrite imm12_nat by auto; reflexivity|]. constructor; [reflexivity|constructor]. }
  induction k as [|k IH]; intros f pc lo hi1 ts d label x label' E Ft; cbn [emit_search] in E;
    destruct (single_target lo hi1 ts d) as [[q|]|] eqn:Es; try discriminate;
    try (apply some_pair in E; destruct E as [<- _]; constructor; [reflexivity|constructor]).
  destruct (nth_error ts _) as [[mt mtg]|] eqn:Nm; [|discriminate].
  assert (Lm : (Z.of_nat mt < 4096)%Z) by (rewrite Forall_forall in Ft; exact (Ft _ (nth_error_In _ _ Nm))).
  assert (Fl : Forall (fun t => (Z.of_nat (fst t) < 4096)%Z) (firstn (length ts / 2) ts)).
  { rewrite Forall_forall in *. intros t I. apply Ft. rewrite <- (firstn_skipn (length ts / 2) ts). apply in_or_app. auto. }
  assert (Fh : Forall (fun t => (Z.of_nat (fst t) < 4096)%Z) (skipn (length ts / 2 + 1) ts)).
  { rewrite Forall_forall in *. intros t I. apply Ft. rewrite <- (firstn_skipn (length ts / 2 + 1) ts). apply in_or_app. auto. }
  destruct (lo =? mt); [destruct (emit_search k f pc (S mt) hi1 _ d label) as [[y lb]|] eqn:Ey; [|discriminate]; apply some_pair in E; destruct E as [<- _]; apply Forall_app; split; [apply Hd; auto|eapply IH; [exact Ey|auto]]|].
  destruct (S mt =? hi1); [destruct (emit_search k f pc lo mt _ d label) as [[y lb]|] eqn:Ey; [|discriminate]; apply some_pair in E; destruct E as [<- _]; apply Forall_app; split; [apply Hd; auto|eapply IH; [exact Ey|auto]]|].
  destruct (single_target lo mt _ d) as [[q|]|]; try discriminate.
  - destruct (emit_search k f pc (S mt) hi1 _ d label) as [[y lb]|] eqn:Ey; [|discriminate]. apply some_pair in E; destruct E as [<- _]. apply Forall_app; split; [apply Hd; auto|].
    constructor; [reflexivity|eapply IH; [exact Ey|auto]].
  - destruct (emit_search k f pc (S mt) hi1 _ d (S label)) as [[y lb]|] eqn:Ey; [|discriminate]. destruct (emit_search k f pc lo mt _ d lb) as [[z lz]|] eqn:Ez; [|discriminate].
    apply some_pair in E; destruct E as [<- _]. apply Forall_app; split; [apply Hd; auto|]. constructor; [reflexivity|]. apply Forall_app; split; [eapply IH; [exact Ey|auto]|].
    constructor; [exact I|eapply IH; [exact Ez|auto]].
Qed.
Lemma main_enc : forall names f pc i x, emit_main names f pc i = Some x -> small_instr i -> Forall line_enc x.
Proof.
  intros names f pc i x E Sm.
  Ltac enc := repeat match goal with
    | H : _ /\ _ |- _ => destruct H
    | H : small_vars _ |- _ => destruct H
    | |- Forall _ (_ ++ _) => apply Forall_app; split
    | |- Forall _ (store_args _ _ _) => apply store_enc; [lia|auto]
    | |- Forall _ (_ :: _) => constructor
    | |- Forall _ [] => constructor
    | |- line_enc (get_var _ _) => apply get_enc; auto
    | |- line_enc (set_var _ _) => apply set_enc; auto
    | |- line_enc (Lab _) => exact I
    | |- line_enc (Data _ _) => exact I
    | |- line_enc (Ins (SubI _ _ _)) => apply imm12_stack; auto
    | |- line_enc (Ins (AddI SP _ _)) => apply imm12_stack; auto
    | |- line_enc (Ins (MovI _ (Z.of_nat _))) => apply mov_enc; lia
    | |- line_enc (Ins _) => reflexivity
    end.
  destruct i; cbn [emit_main small_instr] in E, Sm; try (match type of E with Some ?w = _ => assert (x = w) by congruence end; subst x; clear E; enc; fail).
  - destruct is_struct; injection E as <-; enc.
  - destruct (emit_search (length targets) f pc 0 num_tags targets default 0) as [[w lb]|] eqn:Es; [|discriminate].
    match type of E with Some ?w = _ => assert (x = w) by congruence end; subst x; clear E. destruct Sm. apply Forall_app; split; [enc|eapply search_enc; [exact Es|auto]].
  - destruct (asm_symbol names (code_block c)) as [g|]; [|discriminate]. destruct (Nat.leb_spec (code_num_statics c) (length scope)) as [Le|]; [|discriminate].
    match type of E with Some ?w = _ => assert (x = w) by congruence end; subst x; clear E. destruct Sm as [S1 [S2 [S3 S4]]].
    cbn [app]. constructor; [exact I|]. constructor; [apply imm12_stack; lia|]. apply Forall_app; split.
    + apply store_enc; [rewrite firstn_length; lia|]. rewrite Forall_forall in *. intros v Iv. apply S4. rewrite <- (firstn_skipn (code_num_statics c) scope). apply in_or_app. auto.
    + constructor; [reflexivity|]. constructor; [reflexivity|]. constructor; [apply imm12_nat; auto|]. constructor; [reflexivity|]. constructor; [reflexivity|]. constructor; [apply set_enc; auto|].
      constructor; [apply imm12_stack; lia|constructor].
Qed.
Lemma abort_enc : forall f m, Forall line_enc (do_abort f m).
Proof. intros f m. unfold do_abort. repeat (constructor; [reflexivity|]). constructor. Qed.

(** Every instruction of a function of ordinary size has an encoding. *)
Theorem small_functions_encodable : forall names c x, small_code c -> asm_code names c = Some x -> forall i, In (Ins i) x -> encodable i = true.
Proof.
  intros names c x [Sl Si] E. assert (F : Forall line_enc x); [|rewrite Forall_forall in F; intros i Ii; exact (F _ Ii)].
  unfold asm_code in E. destruct (asm_symbol names (code_block c)) as [s|]; [|discriminate].
  destruct (emit_body names (code_block c) 0 (code_instrs c)) as [b|] eqn:Eb; [|discriminate].
  match type of E with Some ?t = _ => assert (x = t) by congruence end. subst x. clear E.
  constructor; [exact I|]. apply Forall_app; split; [unfold prologue; constructor; [apply imm12_stack; auto|]; repeat (constructor; [reflexivity|]); constructor|].
  apply Forall_app; split; [|apply Forall_app; split; [unfold epilogue; constructor; [exact I|]; repeat (constructor; [first [reflexivity|apply imm12_stack; auto]|]); constructor|apply Forall_app; split; [|constructor; [exact I|constructor]]]].
  - revert Eb Si. generalize (code_block c) as f, (code_instrs c) as is, 0 as pc. clear. intros f is. revert b. induction is as [|[ops i] is IH]; intros b pc Eb Si; cbn [emit_body] in Eb; [injection Eb as <-; constructor|].
    inversion Si as [|? ? [So Sj] Si']; subst. cbn [fst snd] in *.
    destruct (emit_main names f pc i) as [y|] eqn:Ey; [|discriminate]. destruct (emit_body names f (S pc) is) as [z|] eqn:Ez; [|discriminate].
    match type of Eb with Some ?w = _ => assert (b = w) by congruence end. subst b. constructor; [exact I|]. apply Forall_app; split.
    + destruct ops; [constructor|]. constructor; [reflexivity|]. constructor; [exact I|constructor].
    + apply Forall_app; split; [eapply main_enc; [exact Ey|auto]|eapply IH; [exact Ez|auto]].
  - revert Si. generalize (code_block c) as f, (code_instrs c) as is, 0 as pc. clear. intros f is. induction is as [|[ops i] is IH]; intros pc Si; cbn [emit_outlines]; [constructor|].
    inversion Si as [|? ? [So Sj] Si']; subst. cbn [fst snd] in *.
    apply Forall_app; split; [|apply IH; auto]. unfold emit_outline. apply Forall_app; split.
    + destruct ops as [|o ops]; [constructor|]. cbn [outline_prof]. constructor; [exact I|]. apply Forall_app; split; [|constructor; [reflexivity|constructor]].
      apply Forall_forall. intros y Iy. apply in_flat_map in Iy. destruct Iy as [o' [Io Iy]]. rewrite Forall_forall in So. specialize (So o' Io).
      destruct o'; cbn [emit_op In small_op] in Iy, So; repeat (destruct Iy as [<-|Iy]; [first [reflexivity|apply imm12_nat; exact So|apply mov_enc; exact So]|]); destruct Iy.
    + destruct i; cbn [outline_err]; try constructor; try exact I; try apply abort_enc.
      * destruct is_struct; [constructor; [exact I|apply abort_enc]|]. apply Forall_app; split; [constructor; [exact I|apply abort_enc]|]. constructor; [exact I|]. constructor; [apply set_enc; apply Sj|apply abort_enc].
      * apply Forall_app; split; [apply abort_enc|constructor; [exact I|apply abort_enc]].
Qed.

(** ** Beyond that size (Finding 26) *)

(** Exactly which numbers of values can be put on the stack: up to 512, and those whose
    space is a multiple of 4096 bytes. *)
Theorem stack_space_encodable : forall n, imm12 (stack_bytes n) = true <->
  (Z.of_nat n <= 512 \/ exists k, 1 <= k <= 4095 /\ (Z.of_nat n = 512 * k \/ Z.of_nat n = 512 * k - 1))%Z.
Proof.
  intros n. unfold imm12. rewrite orb_true_iff, !andb_true_iff, !Z.leb_le, Z.eqb_eq. unfold stack_bytes.
  pose proof (Z.div_mod (Z.of_nat n + 1) 2 ltac:(lia)) as D. pose proof (Z.mod_pos_bound (Z.of_nat n + 1) 2 ltac:(lia)) as M.
  set (q := ((Z.of_nat n + 1) / 2)%Z) in *. split.
  - intros [H|[[H1 H2] H3]]; [left; lia|]. pose proof (Z.div_mod (16 * q) 4096 ltac:(lia)) as D2. rewrite H1 in D2. set (k := (16 * q / 4096)%Z) in *.
    destruct (Z.eq_dec k 0) as [K|K]; [left; lia|]. right. exists k. split; [lia|]. assert (q = 256 * k)%Z by lia. lia.
  - intros [H|[k [K H]]]; [|right; assert (Q : (q = 256 * k)%Z) by lia; rewrite Q; split; [split; [replace (16 * (256 * k))%Z with (k * 4096)%Z by lia; apply Z.mod_mul; lia|lia]|lia]].
    destruct (Z.eq_dec q 256) as [->|N]; [right; cbn; lia|left; lia].
Qed.

(** A function with 513 to 1022 local variables cannot be assembled. *)
Theorem many_locals_not_encodable : forall names c x, (513 <= Z.of_nat (code_num_locals c) <= 1022)%Z -> asm_code names c = Some x ->
  exists i, In (Ins i) x /\ encodable i = false.
Proof.
  intros names c x R E. unfold asm_code in E. destruct (asm_symbol names (code_block c)) as [s|]; [|discriminate].
  destruct (emit_body names (code_block c) 0 (code_instrs c)) as [b|] eqn:Eb; [|discriminate].
  match type of E with Some ?t = _ => assert (x = t) by congruence end. subst x. clear E.
  exists (SubI SP SP (stack_bytes (code_num_locals c))). split; [right; left; reflexivity|]. cbn [encodable].
  destruct (imm12 (stack_bytes (code_num_locals c))) eqn:Q; auto. apply stack_space_encodable in Q. destruct Q as [Q|[k [K Q]]]; lia.
Qed.

(** A module with a list of 513 elements: it compiles, C is generated for it, it runs in the
    interpreter, but it cannot be assembled. *)
Definition wide_list : tc := TList (repeat (TVar (Arg 0)) 513).
Definition wide_module (c : code) : cmodule := mk_cmodule (CheckSafeSpec.link_path ["W"%string]) [CheckSafeSpec.link_path ["M"%string]] c 0.
Definition wide_names : list str := map (fun i => [47; 87; 37; 48 + Z.of_nat i]%Z) (seq 0 9).
Definition wide_code : code := Eval vm_compute in match compile_code 1 wide_list with Some (c, _) => c | None => Code 0 0 0 0 [] end.
Definition wide_blocks : nat := Eval vm_compute in match compile_code 1 wide_list with Some (_, n) => n | None => 0 end.
Theorem wide_list_not_assembled :
  wf 0 1 [] wide_list = true /\ compile_code 1 wide_list = Some (wide_code, wide_blocks) /\
  (exists t, generate wide_names (wide_module wide_code) = Some t) /\
  exists t i, asm_generate wide_names (wide_module wide_code) = Some t /\ In (Ins i) (a_lines t) /\ encodable i = false.
Proof.
  split; [vm_compute; reflexivity|]. split; [vm_compute; reflexivity|]. split.
  - destruct (generate wide_names (wide_module wide_code)) as [t|] eqn:E; [eauto|vm_compute in E; discriminate].
  - destruct (asm_generate wide_names (wide_module wide_code)) as [t|] eqn:E; [|vm_compute in E; discriminate].
    exists t, (SubI SP SP (stack_bytes 513)). split; auto. split; [|reflexivity].
    apply (f_equal (fun o => match o with Some t => existsb (fun l => match l with Ins (SubI SP SP z) => (z =? 4112)%Z | _ => false end) (a_lines t) | None => false end)) in E.
    match type of E with ?l = _ => assert (Q : l = true) by (vm_compute; reflexivity); rewrite Q in E end. symmetry in E. apply existsb_exists in E. destruct E as [l [I H]].
    destruct l as [| |i]; try discriminate. destruct i; try discriminate. destruct d; try discriminate. destruct s; try discriminate. apply Z.eqb_eq in H. subst. exact I.
Qed.

(** An ordinary module. *)
Theorem cast_encodable : small_code (c_code (g_module GenSafe.cast_g0)) /\ small_code (c_code (g_module GenSafe.cast_g1)).
Proof. split; (split; [cbn; lia|]); repeat (constructor; [split; [repeat constructor; cbn; lia|cbn; repeat split; repeat constructor; cbn; lia]|]); constructor. Qed.
