(** * lib/c.c: the C code generator, and what the generated C does. *)
From Coq Require Import ZArith List Arith Bool.
From Verif Require Import PathModel LoadModel FuncModel CodeModel LinkModel.
Import ListNotations.

(** ** Labels *)

(** isalnum(3) in the C locale. *)
Definition is_alnum (c : Z) : bool :=
  ((48 <=? c) && (c <=? 57) || (65 <=? c) && (c <=? 90) || (97 <=? c) && (c <=? 122))%Z.

(** The digits of printf's %x. *)
Definition hex_digit (d : nat) : Z := if d <? 10 then Z.of_nat (48 + d) else Z.of_nat (87 + d).

(** The hexadecimal digits of [n], last one first; [k] bounds their number. *)
Fixpoint hex_rev (k n : nat) : list Z :=
  match k with
  | O => []
  | S k' => if n =? 0 then [] else hex_digit (n mod 16) :: hex_rev k' (n / 16)
  end.

(** printf's %0Nx. *)
Definition hex (width n : nat) : str :=
  let ds := hex_rev n n in rev (ds ++ repeat (hex_digit 0) (width - length ds)).

Definition us : Z := 95. (* _ *)

(** lib/c.c:614-618: one character.  [c] is a byte of the string; [*p] is a (signed) char, so
    that for bytes from 128 on "%02x" prints the eight digits of a negative int: the result
    does not fit in [char x[5]].  [None]: the buffer overflows. *)
Definition sanitize_char (c : Z) : option str :=
  if is_alnum c then Some [c]
  else if (128 <=? c)%Z then None
  else Some (us :: hex 2 (Z.to_nat c) ++ [us]).

(** lib/c.c:611-620 SanitizeString. *)
Fixpoint sanitize (s : str) : option str :=
  match s with
  | [] => Some []
  | c :: r =>
    match sanitize_char c, sanitize r with
    | Some x, Some y => Some (x ++ y)
    | _, _ => None
    end
  end.

(** lib/c.c:591-598 SizeofSanitizedString. *)
Fixpoint sizeof_sanitized (s : str) : nat :=
  match s with
  | [] => 1
  | c :: r => (if is_alnum c then 1 else 4) + sizeof_sanitized r
  end.

(** lib/c.c:661-673: the names of a path. *)
Fixpoint label_names (p : path) : option str :=
  match p with
  | [] => Some []
  | n :: r =>
    match sanitize (n_str n), label_names r with
    | Some x, Some y => Some (us :: hex 2 47 ++ us :: x ++ y)
    | _, _ => None
    end
  end.

(** lib/c.c:632-678 LabelForPath. *)
Definition label_for_path (p : path) : option str :=
  match label_names p with
  | Some x => Some ([95; 70; 98; 108; 101]%Z (* _Fble *) ++ x ++ us :: hex 2 37 ++ [us])
  | None => None
  end.

(** lib/c.c:643-657: the size of the array [name]. *)
Fixpoint label_size (p : path) : nat :=
  match p with
  | [] => 5 + 1 + 4
  | n :: r => 4 + (sizeof_sanitized (n_str n) - 1) + label_size r
  end.

(** lib/c.c:284-290, 436-443, 709-718: the name of the run function of a code block; [names]
    are the names of the profile blocks of the module. *)
Definition symbol (names : list str) (block : nat) : option str :=
  match nth_error names block with
  | None => None
  | Some s => match sanitize s with Some x => Some (x ++ us :: hex 4 block) | None => None end
  end.

(** ** Generated statements *)

(** FbleExecutable (include/fble/fble-function.h) with the name of its run function. *)
Record exe := mk_exe { x_args : nat; x_statics : nat; x_run : str }.

(** The statements EmitCode prints, in the order of the code below.  Statements for errors
    stand for [if (...) { ReportAbort(...); return NULL; }]. *)
Inductive stmt :=
| CLabel (pc : nat)                                   (* pc_%zi: *)
| CProfile (ops : list prof_op)                       (* if (profile) { FbleProfile...; } *)
| CNewStruct (dest argc : nat) (args : list var)      (* l[dest] = FbleNewStructValue_(heap, argc, args) *)
| CNewUnion (dest tag : nat) (arg : var)              (* l[dest] = FbleNewUnionValue(heap, tag, arg) *)
| CStructField (dest : nat) (obj : var) (tag : nat)   (* l[dest] = FbleStructValueField(obj, tag) *)
| CUnionField (dest : nat) (obj : var) (tag : nat)    (* l[dest] = FbleUnionValueField(obj, tag) *)
| CAbortIfNull (dest : nat)                           (* if (l[dest] == NULL) abort *)
| CAbortIfWrong (dest : nat)                          (* if (l[dest] == FbleWrongUnionTag) { l[dest] = NULL; abort } *)
| CSwitch (cond : var) (cases : list (nat * nat)) (default : nat) (* switch (FbleUnionValueTag(cond)) { case -1: abort ... } *)
| CGoto (pc : nat)
| CStaticExe (id : nat) (x : exe)                     (* static FbleExecutable exe_id = ... *)
| CFvArray (pc size : nat) (xs : list var)            (* FbleValue* fv_pc[size] = { xs } *)
| CNewFunc (dest id offset pc : nat)                  (* l[dest] = FbleNewFuncValue(heap, &exe_id, profile_block_id + offset, fv_pc) *)
| CCaArray (pc size : nat) (xs : list var)            (* FbleValue* ca_pc[size] = { xs } *)
| CCall (dest : nat) (func : var) (argc pc : nat)     (* l[dest] = FbleCall(heap, profile, func, argc, ca_pc) *)
| CFunction (func : var)                              (* f0 = FbleFuncValueFunction(func) *)
| CAbortIfF0Null                                      (* if (f0 == NULL) abort *)
| CReturnTail (func : var) (argc pc : nat)            (* return FbleTailCall(heap, f0, func, argc, ca_pc) *)
| CCopy (dest : nat) (src : var)                      (* l[dest] = src *)
| CNewRef (dest : nat)                                (* l[dest] = FbleNewRefValue(heap) *)
| CAssignRef (ref : nat) (value : var)                (* if (!FbleAssignRefValue(heap, l[ref], value)) abort *)
| CReturn (v : var)                                   (* return v *)
| CTypeValue (dest : nat)                             (* l[dest] = FbleGenericTypeValue *)
| CNewList (dest argc : nat) (args : list var)        (* l[dest] = FbleNewListValue_(heap, argc, args) *)
| CStaticLit (id : nat) (letters : list nat)          (* static size_t lit_id[] = { letters } *)
| CNewLiteral (dest argc id : nat).                   (* l[dest] = FbleNewLiteralValue(heap, argc, lit_id) *)

(** lib/c.c:348-574: the statements of instruction [i] at [pc], for the next free [exe_id] and
    [lit_id]; [None] if the name of a function cannot be printed or scope.xs is read out of
    bounds (lib/c.c:447-451). *)
Definition emit_instr (names : list str) (pc exe_id lit_id : nat) (i : instr) : option (list stmt) :=
  match i with
  | IStruct args dest => Some [CNewStruct dest (length args) args]
  | IUnion tag arg dest => Some [CNewUnion dest tag arg]
  | IAccess true obj tag dest => Some [CStructField dest obj tag; CAbortIfNull dest]
  | IAccess false obj tag dest => Some [CUnionField dest obj tag; CAbortIfNull dest; CAbortIfWrong dest]
  | ISelect cond _ targets default => Some [CSwitch cond targets default]
  | IGoto target => Some [CGoto target]
  | IFunc dest offset c scope =>
    match symbol names (code_block c) with
    | None => None
    | Some f =>
      if code_num_statics c <=? length scope then
        Some [CStaticExe exe_id (mk_exe (code_num_args c) (code_num_statics c) f);
              CFvArray pc (code_num_statics c) (firstn (code_num_statics c) scope);
              CNewFunc dest exe_id offset pc]
      else None
    end
  | ICall func args dest =>
    Some [CCaArray pc (length args) args; CCall dest func (length args) pc; CAbortIfNull dest]
  | ITail func args =>
    Some [CFunction func; CAbortIfF0Null; CCaArray pc (length args) args; CReturnTail func (length args) pc]
  | ICopy src dest => Some [CCopy dest src]
  | IRef dest => Some [CNewRef dest]
  | IRefDef ref value => Some [CAssignRef ref value]
  | IReturn v => Some [CReturn v]
  | IType dest => Some [CTypeValue dest]
  | IList args dest => Some [CNewList dest (length args) args]
  | ILiteral letters dest => Some [CStaticLit lit_id letters; CNewLiteral dest (length letters) lit_id]
  | INop => Some []
  end.

(** The entries of jump_target an instruction sets (lib/c.c:409-418, 426-428). *)
Definition jumps (i : instr) : list nat :=
  match i with
  | ISelect _ _ targets default => map snd targets ++ [default]
  | IGoto target => [target]
  | _ => []
  end.

(** lib/c.c:303-575: the loop over the instructions from [pc] on; [size] is instrs.size and
    [jt] the indices where jump_target is set.  [None] also if a target is not after the
    jump (assertion) or if jump_target is written out of bounds. *)
Fixpoint emit (names : list str) (size pc : nat) (jt : list nat) (exe_id lit_id : nat)
  (l : list (list prof_op * instr)) : option (list stmt) :=
  match l with
  | [] => Some []
  | (ops, i) :: r =>
    if forallb (fun t => (pc <? t) && (t <? size)) (jumps i) then
      match emit_instr names pc exe_id lit_id i,
            emit names size (S pc) (jumps i ++ jt)
              (match i with IFunc _ _ _ _ => S exe_id | _ => exe_id end)
              (match i with ILiteral _ _ => S lit_id | _ => lit_id end) r with
      | Some x, Some y =>
        Some ((if existsb (Nat.eqb pc) jt then [CLabel pc] else []) ++
              (match ops with [] => [] | _ => [CProfile ops] end) ++ x ++ y)
      | _, _ => None
      end
    else None
  end.

(** A generated function: its name, the size of the array [l], its statements. *)
Record cfun := mk_cfun { f_name : str; f_locals : nat; f_body : list stmt }.

(** lib/c.c:282-577 EmitCode. *)
Definition emit_code (names : list str) (c : code) : option cfun :=
  match symbol names (code_block c), emit names (length (code_instrs c)) 0 [] 0 0 (code_instrs c) with
  | Some f, Some b => Some (mk_cfun f (code_num_locals c) b)
  | _, _ => None
  end.

(** lib/c.c:51-83 CollectBlocks. *)
Fixpoint collect (c : code) : list code :=
  c :: match c with
       | Code _ _ _ _ l =>
         (fix instrs_loop (l : list (list prof_op * instr)) : list code :=
            match l with
            | [] => []
            | (_, i) :: r => match i with IFunc _ _ c' _ => collect c' | _ => [] end ++ instrs_loop r
            end) l
       end.

Fixpoint all_some {A} (l : list (option A)) : option (list A) :=
  match l with
  | [] => Some []
  | Some x :: r => match all_some r with Some y => Some (x :: y) | None => None end
  | None :: _ => None
  end.

(** A generated C file: the global variable it defines, the static FbleGeneratedModule data
    it holds (path, dependencies by name, executable), the functions it declares and
    defines. *)
Record tunit := mk_tunit {
  t_label : str; t_path : path; t_deps : list str; t_exe : exe; t_protos : list str; t_funs : list cfun }.

(** lib/c.c:681-729 FbleGenerateC and 211-256 StaticGeneratedModule.  Only what the meaning of
    the C file depends on: include lines, error messages and locations, the strings of names
    and the numbering of the static data l%x are left out (GenText has the string
    literals). *)
Definition generate (names : list str) (m : cmodule) : option tunit :=
  let blocks := collect (c_code m) in
  match label_for_path (c_path m), all_some (map label_for_path (c_deps m)),
        symbol names (code_block (c_code m)),
        all_some (map (fun c => symbol names (code_block c)) blocks), all_some (map (emit_code names) blocks) with
  | Some l, Some ds, Some f, Some ps, Some fs =>
    Some (mk_tunit l (c_path m) ds (mk_exe (code_num_args (c_code m)) (code_num_statics (c_code m)) f) ps fs)
  | _, _, _, _, _ => None
  end.

(** ** What the generated C does *)

(** The run functions of a program of generated modules: function [f] of C file number [tu],
    and the interpreter on the code of <main> that the linker makes. *)
Inductive cpay := CFn (tu : nat) (f : str) | CMain (c : code).

Notation gval := (val cpay).
Notation gst := (st cpay).
Notation gres := (res cpay).

(** A FbleValue* variable: not written, NULL, FbleWrongUnionTag, or a value. *)
Inductive cell := Uninit | Null | Wrong | Val (v : gval).

Section run.
  (** FbleCall. *)
  Variable callf : gst -> gval -> list gval -> gres.
  (** The C file, and the function's arguments. *)
  Variables (tu : nat) (block : nat) (statics args : list gval) (body : list stmt).

  Record frame := mk_frame {
    fl : list cell;                      (* l *)
    fv : list (nat * list gval);         (* fv%zi *)
    ca : list (nat * list gval);         (* ca%zi *)
    f0 : option (option gval) }.         (* f0: not set, NULL, a function *)

  (** Reading a variable.  Reading one that was not written is undefined; NULL and
      FbleWrongUnionTag are not FbleValues the runtime accepts. *)
  Definition cget (l : list cell) (v : var) : option gval :=
    match v with
    | Static i => nth_error statics i
    | Arg i => nth_error args i
    | Local i => match nth_error l i with Some (Val x) => Some x | _ => None end
    end.
  Fixpoint cgets (l : list cell) (vs : list var) : option (list gval) :=
    match vs with
    | [] => Some []
    | v :: r =>
      match cget l v, cgets l r with
      | Some x, Some xs => Some (x :: xs)
      | _, _ => None
      end
    end.

  Fixpoint assoc {A} (i : nat) (l : list (nat * A)) : option A :=
    match l with
    | [] => None
    | (j, x) :: r => if i =? j then Some x else assoc i r
    end.

  (** The static variables of the function: initialised when the program starts. *)
  Fixpoint static_exe (id : nat) (b : list stmt) : option exe :=
    match b with
    | [] => None
    | CStaticExe j x :: r => if id =? j then Some x else static_exe id r
    | _ :: r => static_exe id r
    end.
  Fixpoint static_lit (id : nat) (b : list stmt) : option (list nat) :=
    match b with
    | [] => None
    | CStaticLit j x :: r => if id =? j then Some x else static_lit id r
    | _ :: r => static_lit id r
    end.
  (** The statements from label pc_%zi on. *)
  Fixpoint find_label (pc : nat) (b : list stmt) : option (list stmt) :=
    match b with
    | [] => None
    | CLabel q :: r => if pc =? q then Some b else find_label pc r
    | _ :: r => find_label pc r
    end.

  Inductive cres := CNext (e : frame) (s : gst) | CJump (pc : nat) (e : frame) (s : gst) | CStop (o : out cpay) (s : gst).

  Definition set_l (l : list cell) (e : frame) := mk_frame l (fv e) (ca e) (f0 e).
  Definition cput (dest : nat) (x : cell) (e : frame) (s : gst) : cres :=
    if dest <? length (fl e) then CNext (set_l (set_nth dest x (fl e)) e) s else CStop Crash s.
  Definition cput_val (dest : nat) (x : option gval) (e : frame) (s : gst) : cres :=
    match x with Some v => cput dest (Val v) e s | None => CStop Crash s end.

  (** A profile operation (lib/c.c:318-345), as for the interpreter (CodeModel.do_op). *)
  Definition c_op (s : gst) (op : prof_op) : gst :=
    log (match op with
         | OEnter a => PEnter (block + a)
         | OReplace a => PReplace (block + a)
         | OExit => PExit
         | OSample t => PSample t
         end) s.

  (** One statement.  The functions of the runtime (lib/value.c) are those of FuncModel:
      FbleStructValueField and FbleUnionValueField are NULL and FbleUnionValueTag is -1 for
      an undefined value. *)
  Definition cstep (x : stmt) (e : frame) (s : gst) : cres :=
    match x with
    | CLabel _ => CNext e s
    | CProfile ops => CNext e (fold_left c_op ops s)
    | CNewStruct dest argc a =>
      match cgets (fl e) a with
      | Some xs => if argc =? length xs then cput dest (Val (VStruct xs)) e s else CStop Crash s
      | None => CStop Crash s
      end
    | CNewUnion dest tag a =>
      match cget (fl e) a with
      | Some v => cput dest (Val (VUnion tag v)) e s
      | None => CStop Crash s
      end
    | CStructField dest obj tag =>
      match cget (fl e) obj with
      | None => CStop Crash s
      | Some o =>
        match strict_value (refs s) o with
        | SUndef => cput dest Null e s
        | SVal (VStruct fs) => cput_val dest (nth_error fs tag) e s
        | _ => CStop Crash s
        end
      end
    | CUnionField dest obj tag =>
      match cget (fl e) obj with
      | None => CStop Crash s
      | Some o =>
        match strict_value (refs s) o with
        | SUndef => cput dest Null e s
        | SVal (VUnion t v) => cput dest (if t =? tag then Val v else Wrong) e s
        | _ => CStop Crash s
        end
      end
    | CAbortIfNull dest =>
      match nth_error (fl e) dest with
      | Some Null => CStop Abort s
      | Some Uninit | None => CStop Crash s
      | Some _ => CNext e s
      end
    | CAbortIfWrong dest =>
      match nth_error (fl e) dest with
      | Some Wrong => CStop Abort s
      | Some Uninit | None => CStop Crash s
      | Some _ => CNext e s
      end
    | CSwitch cond cases default =>
      match cget (fl e) cond with
      | None => CStop Crash s
      | Some o =>
        match strict_value (refs s) o with
        | SUndef => CStop Abort s
        | SVal (VUnion t _) => CJump (match assoc t cases with Some pc => pc | None => default end) e s
        | _ => CStop Crash s
        end
      end
    | CGoto pc => CJump pc e s
    | CStaticExe _ _ | CStaticLit _ _ => CNext e s
    | CFvArray pc size xs =>
      match cgets (fl e) xs with
      | Some vs => if size =? length vs then CNext (mk_frame (fl e) ((pc, vs) :: fv e) (ca e) (f0 e)) s else CStop Crash s
      | None => CStop Crash s
      end
    | CNewFunc dest id offset pc =>
      match static_exe id body, assoc pc (fv e) with
      | Some x, Some vs =>
        if x_statics x <=? length vs then
          cput dest (Val (VFunc (x_args x) (CFn tu (x_run x)) (block + offset) (firstn (x_statics x) vs))) e s
        else CStop Crash s
      | _, _ => CStop Crash s
      end
    | CCaArray pc size xs =>
      match cgets (fl e) xs with
      | Some vs => if size =? length vs then CNext (mk_frame (fl e) (fv e) ((pc, vs) :: ca e) (f0 e)) s else CStop Crash s
      | None => CStop Crash s
      end
    | CCall dest func argc pc =>
      match cget (fl e) func, assoc pc (ca e) with
      | Some f, Some vs =>
        if argc <=? length vs then
          match callf s f (firstn argc vs) with
          | (Ret v, s') => cput dest (Val v) e s'
          | (Abort, s') => cput dest Null e s'
          | (Tail _ _, s') => CStop Crash s'
          | (o, s') => CStop o s'
          end
        else CStop Crash s
      | _, _ => CStop Crash s
      end
    | CFunction func =>
      match cget (fl e) func with
      | None => CStop Crash s
      | Some f =>
        match strict_value (refs s) f with
        | SUndef => CNext (mk_frame (fl e) (fv e) (ca e) (Some None)) s
        | SBad => CStop Crash s
        | SVal fn =>
          match num_args_of fn with
          | Some _ => CNext (mk_frame (fl e) (fv e) (ca e) (Some (Some fn))) s
          | None => CStop Crash s
          end
        end
      end
    | CAbortIfF0Null => match f0 e with Some (Some _) => CNext e s | Some None => CStop Abort s | None => CStop Crash s end
    | CReturnTail func argc pc =>
      match cget (fl e) func, assoc pc (ca e), f0 e with
      | Some f, Some vs, Some (Some _) => if argc <=? length vs then CStop (Tail f (firstn argc vs)) s else CStop Crash s
      | _, _, _ => CStop Crash s
      end
    | CCopy dest src =>
      match cget (fl e) src with
      | Some v => cput dest (Val v) e s
      | None => CStop Crash s
      end
    | CNewRef dest => let '(r, s') := new_ref s in cput dest (Val r) e s'
    | CAssignRef r v =>
      match cget (fl e) (Local r), cget (fl e) v with
      | Some rv, Some x =>
        match assign_ref s rv x with
        | Some (Some s') => CNext e s'
        | Some None => CStop Abort s
        | None => CStop Crash s
        end
      | _, _ => CStop Crash s
      end
    | CReturn v =>
      match cget (fl e) v with
      | Some x => CStop (Ret x) s
      | None => CStop Crash s
      end
    | CTypeValue dest => cput dest (Val VType) e s
    | CNewList dest argc a =>
      match cgets (fl e) a with
      | Some xs => if argc =? length xs then cput dest (Val (list_value xs)) e s else CStop Crash s
      | None => CStop Crash s
      end
    | CNewLiteral dest argc id =>
      match static_lit id body with
      | Some letters => if argc <=? length letters then cput dest (Val (literal_value (firstn argc letters))) e s else CStop Crash s
      | None => CStop Crash s
      end
    end.

  (** Running the statements [rest] of [body].  [k] bounds the number of steps: generated
      code only jumps forward (lib/c.c asserts it), so [length body] is enough.  Falling off
      the end of a function whose value is used is undefined. *)
  Fixpoint crun (k : nat) (rest : list stmt) (e : frame) (s : gst) : gres :=
    match k with
    | O => (Crash, s)
    | S k' =>
      match rest with
      | [] => (Crash, s)
      | x :: r =>
        match cstep x e s with
        | CNext e' s' => crun k' r e' s'
        | CStop o s' => (o, s')
        | CJump pc e' s' =>
          match find_label pc body with
          | Some r' => crun k' r' e' s'
          | None => (Crash, s')
          end
        end
      end
    end.
End run.

(** lib/interpret.c:70-307 on the code of <main> (LinkModel.link_code), which has only calls
    and a return and no profile operations; CodeModel.loop has all instructions, for
    interpreted programs. *)
Fixpoint main_loop (callf : gst -> gval -> list gval -> gres) (statics args : list gval)
  (l : list (list prof_op * instr)) (e : list cell) (s : gst) : gres :=
  match l with
  | ([], ICall f a dest) :: r =>
    match cget statics args e f, cgets statics args e a with
    | Some fv, Some xs =>
      match callf s fv xs with
      | (Ret v, s') => if dest <? length e then main_loop callf statics args r (set_nth dest (Val v) e) s' else (Crash, s')
      | (Tail _ _, s') => (Crash, s')
      | (o, s') => (o, s')
      end
    | _, _ => (Crash, s)
    end
  | ([], IReturn v) :: _ =>
    match cget statics args e v with
    | Some x => (Ret x, s)
    | None => (Crash, s)
    end
  | _ => (Crash, s)
  end.

(** The function a name stands for in a C file; names of static functions are unique in a
    file the C compiler accepts (GenProps.generated_c_is_valid). *)
Fixpoint find_fun (f : str) (l : list cfun) : option cfun :=
  match l with
  | [] => None
  | x :: r => if list_eq_dec Z.eq_dec f (f_name x) then Some x else find_fun f r
  end.

(** FbleExecutable.run in the program made of the C files [tus]. *)
Definition gen_run (tus : list tunit) (callf : gst -> gval -> list gval -> gres) (p : cpay) (block : nat)
  (statics args : list gval) (s : gst) : gres :=
  match p with
  | CFn i f =>
    match nth_error tus i with
    | None => (Crash, s)
    | Some tu =>
      match find_fun f (t_funs tu) with
      | None => (Crash, s)
      | Some fn =>
        crun callf i block statics args (f_body fn) (length (f_body fn)) (f_body fn)
          (mk_frame (repeat Uninit (f_locals fn)) [] [] None) s
      end
    end
  | CMain c => main_loop callf statics args (code_instrs c) (repeat Uninit (code_num_locals c)) s
  end.

(** FbleCall in that program. *)
Definition gcall (tus : list tunit) (n : nat) : gst -> gval -> list gval -> gres := call (gen_run tus) n.

(** ** Linking generated modules *)

(** The FbleGeneratedModule data in memory once the C linker has resolved the names of the
    dependencies: the number of the C file, and the modules deps points to. *)
Inductive cgm := CG (tu : nat) (t : tunit) (deps : list cgm).
Definition cg_path (g : cgm) := let 'CG _ t _ := g in t_path t.
Definition cg_deps (g : cgm) := let 'CG _ _ d := g in d.

(** The C linker: the file that defines the global [l]. *)
Fixpoint find_tu (l : str) (tus : list tunit) (i : nat) : option (nat * tunit) :=
  match tus with
  | [] => None
  | t :: r => if list_eq_dec Z.eq_dec l (t_label t) then Some (i, t) else find_tu l r (S i)
  end.
(** [None]: an undefined reference (or [k] too small: dependencies are not cyclic). *)
Fixpoint c_image (k : nat) (tus : list tunit) (l : str) : option cgm :=
  match k with
  | O => None
  | S k' =>
    match find_tu l tus 0 with
    | None => None
    | Some (i, t) =>
      match all_some (map (c_image k' tus) (t_deps t)) with
      | Some ds => Some (CG i t ds)
      | None => None
      end
    end
  end.

(** lib/link.c:118-133 LoadGenerated, as LinkModel.load_generated. *)
Fixpoint c_load (loaded : list cgm) (g : cgm) : list cgm :=
  if existsb (fun m => path_eqb (cg_path m) (cg_path g)) loaded then loaded
  else
    (match g with
     | CG _ _ deps =>
       (fix deps_loop (loaded : list cgm) (deps : list cgm) : list cgm :=
          match deps with
          | [] => loaded
          | d :: r => deps_loop (c_load loaded d) r
          end) loaded deps
     end) ++ [g].

(** lib/link.c:182: the function of a module; [blk] is what FbleAddBlocksToProfile returns for
    the module with that path. *)
Definition cg_func (blk : path -> nat) (g : cgm) : gval :=
  let 'CG i t _ := g in VFunc (x_args (t_exe t)) (CFn i (x_run (t_exe t))) (blk (t_path t)) [].

(** lib/link.c:150-219 LinkGenerated.  The code of <main> depends on the paths only
    (LinkModel.link_code, whose code fields are not read). *)
Definition c_link (main_id : nat) (blk : path -> nat) (g : cgm) : option gval :=
  let gs := c_load [] g in
  if forallb (fun g => (x_statics (t_exe (let 'CG _ t _ := g in t)) =? 0) &&
                       (length (cg_deps g) =? x_args (t_exe (let 'CG _ t _ := g in t)))) gs then
    match link_code main_id (map (fun g => mk_cmodule (cg_path g) (map cg_path (cg_deps g)) (Code 0 0 0 0 []) 0) gs) with
    | Some c => Some (VFunc 0 (CMain c) main_id (map (cg_func blk) gs))
    | None => None
    end
  else None.
