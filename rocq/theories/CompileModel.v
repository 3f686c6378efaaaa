(** * lib/tc.h and lib/compile.c: from type checked expressions to bytecode. *)
From Coq Require Import List Arith Lia Bool.
From Verif Require Import FuncModel CodeModel.
Import ListNotations.

(** lib/tc.h:86-320 FbleTc, without locations and names (debug information and the names of
    profile blocks).  Function values have one argument, as all those of lib/typecheck.c do
    (lib/typecheck.c:1560-1600); fields of a struct copy taken from the source are [None]. *)
Inductive tc :=
| TType
| TVar (v : var)
| TLet (recursive : bool) (bindings : list tc) (body : tc)
| TStruct (fields : list tc)
| TCopy (source : tc) (fields : list (option tc))
| TUnion (tag : nat) (arg : tc)
| TSelect (condition : tc) (num_tags : nat) (targets : list (nat * tc)) (default : tc)
| TAccess (is_struct : bool) (obj : tc) (tag : nat)
| TFunc (scope : list var) (body : tc)
| TApply (func arg : tc)
| TList (fields : list tc)
| TLiteral (letters : list nat).

(** lib/compile.c:298-320 RewriteVar (the assertion var.index < statics.size holds for
    well scoped expressions: CompileProofs.rewrite_wf). *)
Definition rewrite_var (statics : list var) (arg_offset : nat) (v : var) : var :=
  match v with
  | Static i => nth i statics v
  | Arg i => Arg (i + arg_offset)
  | Local i => v
  end.

(** lib/compile.c:343-493 RewriteVars. *)
Fixpoint rewrite_vars (statics : list var) (arg_offset : nat) (e : tc) : tc :=
  match e with
  | TType => TType
  | TVar v => TVar (rewrite_var statics arg_offset v)
  | TLet r bs b => TLet r (map (rewrite_vars statics arg_offset) bs) (rewrite_vars statics arg_offset b)
  | TStruct fs => TStruct (map (rewrite_vars statics arg_offset) fs)
  | TCopy src fs => TCopy (rewrite_vars statics arg_offset src) (map (option_map (rewrite_vars statics arg_offset)) fs)
  | TUnion t a => TUnion t (rewrite_vars statics arg_offset a)
  | TSelect c n ts d =>
    TSelect (rewrite_vars statics arg_offset c) n
      (map (fun p => (fst p, rewrite_vars statics arg_offset (snd p))) ts)
      (rewrite_vars statics arg_offset d)
  | TAccess k o t => TAccess k (rewrite_vars statics arg_offset o) t
  | TFunc scope b => TFunc (map (rewrite_var statics arg_offset) scope) b
  | TApply f a => TApply (rewrite_vars statics arg_offset f) (rewrite_vars statics arg_offset a)
  | TList fs => TList (map (rewrite_vars statics arg_offset) fs)
  | TLiteral l => TLiteral l
  end.

(** lib/compile.c:1193-1219: the loop that merges nested function values: the statics, the
    argument offset and the body to rewrite, and the number of arguments. *)
Fixpoint merge_loop (statics : list var) (arg_offset nargs : nat) (body : tc) : list var * nat * nat * tc :=
  match body with
  | TFunc scope b => merge_loop (map (rewrite_var statics arg_offset) scope) nargs (nargs + 1) b
  | _ => (statics, arg_offset, nargs, body)
  end.

(** lib/compile.c:1173-1222: the number of arguments and the body of the merged function. *)
Definition merge_func (scope : list var) (body : tc) : nat * tc :=
  let '(statics, off, nargs, b) := merge_loop (map Static (seq 0 (length scope))) 0 1 body in
  (nargs, rewrite_vars statics off b).

(** lib/compile.c:1258-1267: the function and the arguments, first one first. *)
Fixpoint spine (e : tc) (acc : list tc) : tc * list tc :=
  match e with
  | TApply f a => spine f (a :: acc)
  | _ => (e, acc)
  end.

(** ** The state of the compiler: Scope (lib/compile.c:67-77) and Blocks (95-98).
    A Local is identified by its FbleVar, since a slot holds one Local at a time; [slots]
    are the reference counts of scope->locals, with 0 for NULL; [srefs] and [arefs] those
    of the statics and arguments.  [active] is active_profile_ops: [None] for
    &pending_profile_ops, [Some pc] for the operations of instruction pc.
    [bnext] is blocks.profile.size.  code->num_locals is always [length slots]
    (lib/compile.c:146-149). *)
Record cs := mk_cs {
  srefs : list nat; arefs : list nat; vars : list (option var); slots : list nat;
  instrs : list (list prof_op * instr); pending : list prof_op; active : option nat;
  bstack : list nat; bnext : nat; block : nat }.

Definition with_slots (x : list nat) (s : cs) := mk_cs (srefs s) (arefs s) (vars s) x (instrs s) (pending s) (active s) (bstack s) (bnext s) (block s).
Definition with_srefs (x : list nat) (s : cs) := mk_cs x (arefs s) (vars s) (slots s) (instrs s) (pending s) (active s) (bstack s) (bnext s) (block s).
Definition with_arefs (x : list nat) (s : cs) := mk_cs (srefs s) x (vars s) (slots s) (instrs s) (pending s) (active s) (bstack s) (bnext s) (block s).
Definition with_vars (x : list (option var)) (s : cs) := mk_cs (srefs s) (arefs s) x (slots s) (instrs s) (pending s) (active s) (bstack s) (bnext s) (block s).
Definition with_code (i : list (list prof_op * instr)) (p : list prof_op) (a : option nat) (s : cs) := mk_cs (srefs s) (arefs s) (vars s) (slots s) i p a (bstack s) (bnext s) (block s).
Definition with_blocks (st : list nat) (n : nat) (s : cs) := mk_cs (srefs s) (arefs s) (vars s) (slots s) (instrs s) (pending s) (active s) st n (block s).

Fixpoint first_free (l : list nat) : nat :=
  match l with [] => 0 | O :: _ => 0 | S _ :: r => S (first_free r) end.

(** lib/compile.c:134-159 NewLocal: the index of the new local. *)
Definition new_local (s : cs) : nat * cs :=
  let i := first_free (slots s) in
  (i, with_slots (if i =? length (slots s) then slots s ++ [1] else set_nth i 1 (slots s)) s).

(** local->refcount++ (lib/compile.c:909). *)
Definition retain (v : var) (s : cs) : cs :=
  match v with
  | Static i => with_srefs (set_nth i (S (nth i (srefs s) 0)) (srefs s)) s
  | Arg i => with_arefs (set_nth i (S (nth i (arefs s) 0)) (arefs s)) s
  | Local i => with_slots (set_nth i (S (nth i (slots s) 0)) (slots s)) s
  end.

(** lib/compile.c:173-188 ReleaseLocal; [None]: the local was released before, or an
    assertion fails. *)
Definition release (v : option var) (s : cs) : option cs :=
  match v with
  | None => Some s
  | Some (Static i) =>
    match nth_error (srefs s) i with
    | Some (S (S n)) => Some (with_srefs (set_nth i (S n) (srefs s)) s)
    | _ => None
    end
  | Some (Arg i) =>
    match nth_error (arefs s) i with
    | Some (S (S n)) => Some (with_arefs (set_nth i (S n) (arefs s)) s)
    | _ => None
    end
  | Some (Local i) =>
    match nth_error (slots s) i with
    | Some (S n) => Some (with_slots (set_nth i n (slots s)) s)
    | _ => None
    end
  end.

Fixpoint releases (vs : list var) (s : cs) : option cs :=
  match vs with
  | [] => Some s
  | v :: r => match release (Some v) s with Some s' => releases r s' | None => None end
  end.

(** lib/compile.c:202-214 PushVar. *)
Definition push_var (v : option var) (s : cs) : cs := with_vars (vars s ++ [v]) s.

(** lib/compile.c:225-230 PopVar; [None]: the stack of variables is empty. *)
Definition pop_var (s : cs) : option cs :=
  match rev (vars s) with
  | [] => None
  | v :: r => release v (with_vars (rev r) s)
  end.

Fixpoint pop_vars (n : nat) (s : cs) : option cs :=
  match n with
  | O => Some s
  | S n' => match pop_var s with Some s' => pop_vars n' s' | None => None end
  end.

(** lib/compile.c:244-264 GetVar; [None]: a failed assertion, [Some None]: NULL. *)
Definition get_var (v : var) (s : cs) : option (option var) :=
  match v with
  | Static i => if i <? length (srefs s) then Some (Some (Static i)) else None
  | Arg i => if i <? length (arefs s) then Some (Some (Arg i)) else None
  | Local i => nth_error (vars s) i
  end.

Fixpoint get_vars (vs : list var) (s : cs) : option (list var) :=
  match vs with
  | [] => Some []
  | v :: r =>
    match get_var v s, get_vars r s with
    | Some (Some x), Some xs => Some (x :: xs)
    | _, _ => None
    end
  end.

(** lib/compile.c:277-289 SetVar. *)
Definition set_var (i : nat) (v : var) (s : cs) : option cs :=
  match nth_error (vars s) i with
  | None => None
  | Some old =>
    match release old s with
    | Some s' => Some (with_vars (set_nth i (Some v) (vars s')) s')
    | None => None
    end
  end.

(** lib/compile.c:675-698: appending an operation to a list of them. *)
Fixpoint add_op (op : prof_op) (l : list prof_op) : list prof_op :=
  match l with
  | [] => [op]
  | [OSample t] => match op with OSample t' => [OSample (t + t')] | _ => [OSample t; op] end
  | o :: r => o :: add_op op r
  end.

(** lib/compile.c:667-698 AppendProfileOp. *)
Definition append_op (op : prof_op) (s : cs) : cs :=
  match active s with
  | None => with_code (instrs s) (add_op op (pending s)) None s
  | Some pc =>
    match nth_error (instrs s) pc with
    | Some (ops, i) => with_code (set_nth pc (add_op op ops, i) (instrs s)) (pending s) (Some pc) s
    | None => s (* cannot be: active only points to appended instructions *)
    end
  end.

(** lib/compile.c:613-630 AppendInstr. *)
Definition append_instr (i : instr) (s : cs) : cs :=
  let s := append_op (OSample 1) s in
  match pending s with
  | [] => with_code (instrs s ++ [([], i)]) [] (active s) s
  | ops => with_code (instrs s ++ [(ops, i)]) [] (Some (length (instrs s))) s
  end.

(** Completing an instruction that was appended before its operands were known. *)
Definition patch (pc : nat) (i : instr) (s : cs) : cs :=
  match nth_error (instrs s) pc with
  | Some (ops, _) => with_code (set_nth pc (ops, i) (instrs s)) (pending s) (active s) s
  | None => s
  end.

(** scope->active_profile_ops = &scope->pending_profile_ops. *)
Definition new_basic_block (s : cs) : cs := with_code (instrs s) (pending s) None s.

(** lib/compile.c:716-747 PushBlock and 767-791 PushBodyBlock: the new id. *)
Definition push_block (s : cs) : nat * cs := (bnext s, with_blocks (bnext s :: bstack s) (S (bnext s)) s).

(** lib/compile.c:808-814 EnterBlock. *)
Definition enter_block (replace : bool) (s : cs) : cs :=
  let '(id, s) := push_block s in
  append_op ((if replace then OReplace else OEnter) (id - block s)) s.

(** lib/compile.c:843-849 ExitBlock; [None]: the assertion of PopBlock fails. *)
Definition exit_block (exit : bool) (s : cs) : option cs :=
  match bstack s with
  | [] => None
  | _ :: r =>
    let s := with_blocks r (bnext s) s in
    Some (if exit then s else append_op OExit s)
  end.

(** lib/compile.c:860-867 CompileExit. *)
Definition compile_exit (exit : bool) (v : option var) (s : cs) : cs :=
  match exit, v with
  | true, Some v => append_instr (IReturn v) s
  | _, _ => s
  end.

(** lib/compile.c:530-581 InitScope. *)
Definition init_scope (nargs nstatics blk : nat) (bst : list nat) (bn : nat) : cs :=
  mk_cs (repeat 1 nstatics) (repeat 1 nargs) [] [] [] [] None bst bn blk.

(** lib/compile.c:584-610 FreeScope: PopVar for all remaining variables. *)
Definition free_scope (s : cs) : option cs := pop_vars (length (vars s)) s.

Definition finish_code (nargs nstatics : nat) (s : cs) : code :=
  Code nargs nstatics (length (slots s)) (block s) (instrs s).

Section loops.
  (** CompileExpr. *)
  Variable comp : bool -> tc -> cs -> option (option var * cs).

  (** Compiling expressions from left to right; the results are not NULL. *)
  Fixpoint compile_list (es : list tc) (s : cs) : option (list var * cs) :=
    match es with
    | [] => Some ([], s)
    | e :: r =>
      match comp false e s with
      | Some (Some v, s) =>
        match compile_list r s with
        | Some (vs, s) => Some (v :: vs, s)
        | None => None
        end
      | _ => None
      end
    end.

  (** lib/compile.c:989-1001: the fields of a struct copy. *)
  Fixpoint compile_fields (source : var) (i : nat) (es : list (option tc)) (s : cs) : option (list var * cs) :=
    match es with
    | [] => Some ([], s)
    | Some e :: r =>
      match comp false e s with
      | Some (Some v, s) =>
        match compile_fields source (S i) r s with
        | Some (vs, s) => Some (v :: vs, s)
        | None => None
        end
      | _ => None
      end
    | None :: r =>
      let '(d, s) := new_local s in
      let s := append_instr (IAccess true source i d) s in
      match compile_fields source (S i) r s with
      | Some (vs, s) => Some (Local d :: vs, s)
      | None => None
      end
    end.

  (** lib/compile.c:919-929: the variables of a let. *)
  Fixpoint let_vars (recursive : bool) (n : nat) (s : cs) : list nat * cs :=
    match n with
    | O => ([], s)
    | S n' =>
      if recursive then
        let '(d, s) := new_local s in
        let s := append_instr (IRef d) s in
        let '(ds, s) := let_vars recursive n' (push_var (Some (Local d)) s) in
        (d :: ds, s)
      else let_vars recursive n' (push_var None s)
    end.

  (** lib/compile.c:932-937: their definitions. *)
  Fixpoint let_defs (es : list tc) (s : cs) : option (list var * cs) :=
    match es with
    | [] => Some ([], s)
    | e :: r =>
      match comp false e (enter_block false s) with
      | Some (Some v, s) =>
        match exit_block false s with
        | Some s =>
          match let_defs r s with
          | Some (vs, s) => Some (v :: vs, s)
          | None => None
          end
        | None => None
        end
      | _ => None
      end
    end.

  (** lib/compile.c:939-948; [refs] are the slots of the references of a recursive let. *)
  Fixpoint let_sets (refs : list nat) (i : nat) (defs : list var) (s : cs) : option cs :=
    match defs with
    | [] => Some s
    | v :: r =>
      let s := match refs with d :: _ => append_instr (IRefDef d v) s | [] => s end in
      match set_var i v s with
      | Some s => let_sets (tl refs) (S i) r s
      | None => None
      end
    end.

  (** lib/compile.c:1055-1083 and 1087-1103: a branch of a select: its address and the
      compiler's state after it (before the goto or nop). *)
  Definition select_branch (exit : bool) (dest : nat) (e : tc) (s : cs) : option (nat * cs) :=
    let s := new_basic_block s in
    let pc := length (instrs s) in
    match comp exit e (enter_block exit s) with
    | None => None
    | Some (r, s) =>
      let s := if exit then Some s
               else match r with Some v => Some (append_instr (ICopy v dest) s) | None => None end in
      match s with
      | None => None
      | Some s =>
        match exit_block exit s with
        | None => None
        | Some s =>
          match release r s with
          | None => None
          | Some s => Some (pc, s)
          end
        end
      end
    end.

  (** lib/compile.c:1054-1084: the targets, and the addresses of the gotos. *)
  Fixpoint select_branches (exit : bool) (dest : nat) (ts : list (nat * tc)) (s : cs) : option (list (nat * nat) * list nat * cs) :=
    match ts with
    | [] => Some ([], [], s)
    | (tag, e) :: r =>
      match select_branch exit dest e s with
      | None => None
      | Some (pc, s) =>
        let goto_pc := length (instrs s) in
        let s := if exit then s else append_instr (IGoto 0) s in
        match select_branches exit dest r s with
        | None => None
        | Some (tgts, gotos, s) =>
          Some ((tag, pc) :: tgts, (if exit then gotos else goto_pc :: gotos), s)
        end
      end
    end.
End loops.

(** lib/compile.c:888-1355 CompileExpr: the local of the result and the new state; [None]
    if an assertion fails or a NULL local is used.  [k] bounds the nesting of expressions
    (the C code recurses on the expression, but RewriteVars makes new ones; [compile_code]
    passes enough). *)
Fixpoint compile (k : nat) (exit : bool) (e : tc) (s : cs) : option (option var * cs) :=
  match k with
  | O => None
  | S k' =>
    let comp := compile k' in
    match e with
    | TType =>
      let '(d, s) := new_local s in
      Some (Some (Local d), compile_exit exit (Some (Local d)) (append_instr (IType d) s))
    | TVar v =>
      match get_var v s with
      | Some (Some x) => Some (Some x, compile_exit exit (Some x) (retain x s))
      | _ => None
      end
    | TLet recursive bs body =>
      let base := length (vars s) in
      let '(ds, s) := let_vars recursive (length bs) s in
      match let_defs comp bs s with
      | None => None
      | Some (defs, s) =>
        match let_sets ds base defs s with
        | None => None
        | Some s =>
          match comp exit body s with
          | None => None
          | Some (r, s) =>
            match pop_vars (length bs) s with
            | Some s => Some (r, s)
            | None => None
            end
          end
        end
      end
    | TStruct fs =>
      match compile_list comp fs s with
      | None => None
      | Some (vs, s) =>
        let '(d, s) := new_local s in
        let s := compile_exit exit (Some (Local d)) (append_instr (IStruct vs d) s) in
        match releases vs s with
        | Some s => Some (Some (Local d), s)
        | None => None
        end
      end
    | TCopy src fs =>
      match comp false src s with
      | Some (Some sv, s) =>
        match compile_fields comp sv 0 fs s with
        | None => None
        | Some (vs, s) =>
          let '(d, s) := new_local s in
          let s := compile_exit exit (Some (Local d)) (append_instr (IStruct vs d) s) in
          match releases vs s with
          | None => None
          | Some s =>
            match release (Some sv) s with
            | Some s => Some (Some (Local d), s)
            | None => None
            end
          end
        end
      | _ => None
      end
    | TUnion tag a =>
      match comp false a s with
      | Some (Some v, s) =>
        let '(d, s) := new_local s in
        let s := compile_exit exit (Some (Local d)) (append_instr (IUnion tag v d) s) in
        match release (Some v) s with
        | Some s => Some (Some (Local d), s)
        | None => None
        end
      | _ => None
      end
    | TSelect c n ts dflt =>
      match comp false c s with
      | Some (Some cv, s) =>
        let select_pc := length (instrs s) in
        let s := append_instr (ISelect cv n [] 0) s in
        let '(dest, s) := if exit then (0, s) else new_local s in
        match select_branches comp exit dest ts s with
        | None => None
        | Some (tgts, gotos, s) =>
          match select_branch comp exit dest dflt s with
          | None => None
          | Some (dpc, s) =>
            let s := if exit then s else append_instr INop s in
            let s := new_basic_block s in
            let s := patch select_pc (ISelect cv n tgts dpc) s in
            let s := fold_left (fun s pc => patch pc (IGoto (length (instrs s))) s) gotos s in
            match release (Some cv) s with
            | Some s => Some (if exit then None else Some (Local dest), s)
            | None => None
            end
          end
        end
      | _ => None
      end
    | TAccess is_struct o tag =>
      (* lib/compile.c:1130-1160 appends the instruction before NewLocal sets its dest; the
         two do not interfere. *)
      match comp false o s with
      | Some (Some v, s) =>
        let '(d, s) := new_local s in
        let s := compile_exit exit (Some (Local d)) (append_instr (IAccess is_struct v tag d) s) in
        match release (Some v) s with
        | Some s => Some (Some (Local d), s)
        | None => None
        end
      | _ => None
      end
    | TFunc scope body =>
      let '(nargs, b) := merge_func scope body in
      match get_vars scope s with
      | None => None
      | Some svs =>
        let '(blk, s) := push_block s in
        match comp true b (init_scope nargs (length scope) blk (bstack s) (bnext s)) with
        | None => None
        | Some (r, fs) =>
          match exit_block true fs with
          | None => None
          | Some fs =>
            match release r fs with
            | None => None
            | Some fs =>
              match free_scope fs with
              | None => None
              | Some fs' =>
                let s := with_blocks (bstack fs) (bnext fs) s in
                let '(d, s) := new_local s in
                let c := finish_code nargs (length scope) fs in
                Some (Some (Local d), compile_exit exit (Some (Local d)) (append_instr (IFunc d (blk - block s) c svs) s))
              end
            end
          end
        end
      end
    | TApply _ _ =>
      let '(f, args) := spine e [] in
      match comp false f s with
      | Some (Some fv, s) =>
        match compile_list comp (rev args) s with
        | None => None
        | Some (ravs, s) =>
          let avs := rev ravs in
          let '(dest, s) := if exit then (0, s) else new_local s in
          let s := append_instr (if exit then ITail fv avs else ICall fv avs dest) s in
          let s := new_basic_block s in
          match release (Some fv) s with
          | None => None
          | Some s =>
            match releases avs s with
            | None => None
            | Some s => Some (if exit then None else Some (Local dest), s)
            end
          end
        end
      | _ => None
      end
    | TList fs =>
      match compile_list comp fs s with
      | None => None
      | Some (vs, s) =>
        let '(d, s) := new_local s in
        let s := compile_exit exit (Some (Local d)) (append_instr (IList vs d) s) in
        match releases vs s with
        | Some s => Some (Some (Local d), s)
        | None => None
        end
      end
    | TLiteral letters =>
      let '(d, s) := new_local s in
      Some (Some (Local d), compile_exit exit (Some (Local d)) (append_instr (ILiteral letters d) s))
    end
  end.

(** The nesting depth of an expression. *)
Fixpoint size (e : tc) : nat :=
  match e with
  | TType | TVar _ | TLiteral _ => 1
  | TLet _ bs b => S (fold_right (fun e n => size e + n) 0 bs + size b)
  | TStruct fs | TList fs => S (fold_right (fun e n => size e + n) 0 fs)
  | TCopy src fs => S (size src + fold_right (fun e n => match e with Some e => size e | None => 0 end + n) 0 fs)
  | TUnion _ a => S (size a)
  | TSelect c _ ts d => S (size c + fold_right (fun p n => size (snd p) + n) 0 ts + size d)
  | TAccess _ o _ => S (size o)
  | TFunc _ b => S (size b)
  | TApply f a => S (size f + size a)
  end.

(** lib/compile.c:1377-1398 Compile: [None] is a failed assertion. *)
Definition compile_code (nargs : nat) (e : tc) : option (code * nat) :=
  let s := init_scope nargs 0 0 [0] 1 in
  match compile (size e) true e s with
  | None => None
  | Some (_, s) =>
    match exit_block true s with
    | None => None
    | Some s =>
      match free_scope s with
      | None => None
      | Some s' =>
        match bstack s' with
        | [] => Some (finish_code nargs 0 s, bnext s')
        | _ => None
        end
      end
    end
  end.
