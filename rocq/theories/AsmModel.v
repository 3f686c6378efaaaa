(** * lib/aarch64.c: the AArch64 code generator, and what the generated assembly does. *)
From Coq Require Import ZArith List Arith Bool.
From Verif Require Import PathModel LoadModel FuncModel CodeModel LinkModel GenModel.
Import ListNotations.

(** ** The assembly language *)

(** lib/aarch64.c:1199-1206 .req: R_HEAP is x19, R_LOCALS x20, R_ARGS x21, R_STATICS x22,
    R_PROFILE_BLOCK_ID x23, R_PROFILE x24; FP is x29 and LR x30.  Of the registers a call
    does not preserve (x0 to x18) those the generator uses. *)
Inductive reg :=
| X0 | X1 | X2 | X3 | X4 | X5 | X9
| RHeap | RLocals | RArgs | RStatics | RBlock | RProfile | FP | LR | SP | XZR.
Scheme Equality for reg.

(** The functions of the runtime the generated code calls. *)
Inductive extern :=
| ENewStruct | ENewUnion | EStructField | EUnionField | EUnionTag | ENewFunc | ECall | EFuncFunction | ETailCall
| ENewRef | EAssignRef | ENewList | ENewLiteral | EEnter | EReplace | EExit | ESample | EFprintf.

(** lib/aarch64.c:1209-1225: the error messages. *)
Inductive msg := MCallee | MStruct | MUnion | MSelect | MWrong | MFunction | MVacuous.

(** What an instruction of function [f] needs out of the main path. *)
Inductive outline := OProfile | OUndef | OBadTag | OAbort | OVacuous.

(** The labels (lib/aarch64.c:529-1085), by what is printed in them; AsmLabel has the text. *)
Inductive label :=
| LSym (s : str)                (* %s.%04zx: the run function of a code block *)
| LPc (f pc : nat)              (* .Lr.%04zx.%zi *)
| LPp (f pc : nat)              (* .Lr.%04zx.%zi.pp *)
| LExit (f : nat)               (* .Lr.%04zx.exit *)
| LOut (f pc : nat) (k : outline) (* .Lo.%04zx.%zi.p, .u, .bt, .abort, .v *)
| LSearch (f pc n : nat)        (* .Lr.%04zx.%zi.%zi *)
| LExe (f pc : nat)             (* .Lr.%04zx.%zi.exe *)
| LLetters (f pc : nat)         (* .Lr.%04zx.%zi.letters *)
| LHigh (f : nat)               (* .L.%04zx.high_pc *)
| GStderr | GTypeValue          (* stderr, FbleGenericTypeValue *)
| GFormat | GLoc | GMsg (m : msg). (* .L.ErrorFormatString, .L.loc.%s, .L.CalleeAborted ... *)

Definition outline_eqb (a b : outline) : bool :=
  match a, b with
  | OProfile, OProfile | OUndef, OUndef | OBadTag, OBadTag | OAbort, OAbort | OVacuous, OVacuous => true
  | _, _ => false
  end.
(** Two jumps to the same text: only for the labels of code. *)
Definition label_eqb (a b : label) : bool :=
  match a, b with
  | LSym s, LSym t => if list_eq_dec Z.eq_dec s t then true else false
  | LPc f p, LPc g q | LPp f p, LPp g q | LExe f p, LExe g q | LLetters f p, LLetters g q => (f =? g) && (p =? q)
  | LExit f, LExit g | LHigh f, LHigh g => f =? g
  | LOut f p k, LOut g q h => (f =? g) && (p =? q) && outline_eqb k h
  | LSearch f p n, LSearch g q m => (f =? g) && (p =? q) && (n =? m)
  | _, _ => false
  end.

Inductive ins :=
| Ldr (d b : reg) (off : Z)            (* ldr d, [b, #off] *)
| Str (s b : reg) (off : Z)            (* str s, [b, #off] *)
| Stp (s1 s2 b : reg) (off : Z)        (* stp s1, s2, [b, #off] *)
| StpPre (s1 s2 b : reg) (off : Z)     (* stp s1, s2, [b, #off]! *)
| Ldp (d1 d2 b : reg) (off : Z)        (* ldp d1, d2, [b, #off] *)
| LdpPost (d1 d2 b : reg) (off : Z)    (* ldp d1, d2, [b], #off *)
| MovR (d s : reg)                     (* mov d, s *)
| MovI (d : reg) (i : Z)               (* mov d, i *)
| AddI (d s : reg) (i : Z)             (* add d, s, #i *)
| SubI (d s : reg) (i : Z)             (* sub d, s, i *)
| CmpI (s : reg) (i : Z)               (* cmp s, i *)
| B (l : label)
| Beq (l : label)
| Bcc (l : label)
| Cbz (s : reg) (l : label)
| Cbnz (s : reg) (l : label)
| Bl (e : extern)
| Br (s : reg)
| Ret_
| Adr (d : reg) (l : label).           (* lib/aarch64.c:480-495 Adr: adrp d, l; add d, d, :lo12:l *)

Inductive data := DExe (x : exe) | DLetters (xs : list nat).

(** The lines of the .text section; [Data] stands for a label and its .xword lines in the
    .data section.  .loc, .align and .section lines are left out. *)
Inductive line := Lab (l : label) | Data (l : label) (d : data) | Ins (i : ins).

(** ** The generator *)

Notation zoff i := (8 * Z.of_nat i)%Z.

(** lib/aarch64.c:399-403 GetFrameVar. *)
Definition get_var (d : reg) (v : var) : line :=
  Ins match v with
      | Static i => Ldr d RStatics (zoff i)
      | Arg i => Ldr d RArgs (zoff i)
      | Local i => Ldr d RLocals (zoff i)
      end.
(** lib/aarch64.c:415-418 SetFrameVar. *)
Definition set_var (s : reg) (i : nat) : line := Ins (Str s RLocals (zoff i)).

(** lib/aarch64.c:431-451 DoAbort.  The line and column of the message are not in CodeModel:
    0 stands for them. *)
Definition do_abort (f : nat) (m : msg) : list line :=
  [Ins (Adr X0 GStderr); Ins (Ldr X0 X0 0); Ins (Adr X1 GFormat); Ins (Adr X2 GLoc); Ins (MovI X3 0); Ins (MovI X4 0);
   Ins (Adr X5 (GMsg m)); Ins (Bl EFprintf); Ins (MovR X0 XZR); Ins (B (LExit f))].

(** lib/aarch64.c:465-468 StackBytesForCount. *)
Definition stack_bytes (count : nat) : Z := 16 * ((Z.of_nat count + 1) / 2).

(** lib/aarch64.c:506-519 GetSingleTarget; an interval is given by its lowest tag, the tag
    after its highest one (hi + 1, 0 for the hi = SIZE_MAX of no tags), and its targets.
    The outer [None] is a failed assertion, the inner one NONE. *)
Definition single_target (lo hi1 : nat) (ts : list (nat * nat)) (default : nat) : option (option nat) :=
  match ts with
  | [] => Some (Some default)
  | [(tag, target)] => if S lo =? hi1 then (if lo =? tag then Some (Some target) else None) else Some None
  | _ => Some None
  end.

(** lib/aarch64.c:528-590 EmitSearch: the lines, and the next free label.  [k] bounds the
    depth of the recursion: an interval loses at least one target each time. *)
Fixpoint emit_search (k f pc : nat) (lo hi1 : nat) (ts : list (nat * nat)) (default label : nat) : option (list line * nat) :=
  match single_target lo hi1 ts default with
  | None => None
  | Some (Some target) => Some ([Ins (B (LPc f target))], label)
  | Some None =>
    match k with
    | O => None
    | S k' =>
      let mid := length ts / 2 in
      match nth_error ts mid with
      | None => None
      | Some (mid_tag, mid_target) =>
        let head := [Ins (CmpI X0 (Z.of_nat mid_tag)); Ins (Beq (LPc f mid_target))] in
        let low := firstn mid ts in
        let high := skipn (mid + 1) ts in
        if lo =? mid_tag then
          match emit_search k' f pc (S mid_tag) hi1 high default label with
          | Some (x, label') => Some (head ++ x, label')
          | None => None
          end
        else if S mid_tag =? hi1 then
          match emit_search k' f pc lo mid_tag low default label with
          | Some (x, label') => Some (head ++ x, label')
          | None => None
          end
        else
          match single_target lo mid_tag low default with
          | None => None
          | Some (Some low_target) =>
            match emit_search k' f pc (S mid_tag) hi1 high default label with
            | Some (x, label') => Some (head ++ Ins (Bcc (LPc f low_target)) :: x, label')
            | None => None
            end
          | Some None =>
            match emit_search k' f pc (S mid_tag) hi1 high default (S label) with
            | None => None
            | Some (x, label1) =>
              match emit_search k' f pc lo mid_tag low default label1 with
              | None => None
              | Some (y, label2) => Some (head ++ Ins (Bcc (LSearch f pc label)) :: x ++ Lab (LSearch f pc label) :: y, label2)
              end
            end
          end
      end
    end
  end.

(** %s.%04zx: the name of the run function of a code block (lib/aarch64.c:366-370, 1032-1035
    and 710-722). *)
Definition asm_symbol (names : list str) (block : nat) : option str :=
  match nth_error names block with
  | None => None
  | Some s => match sanitize s with Some x => Some (x ++ 46%Z (* . *) :: hex 4 block) | None => None end
  end.

(** lib/aarch64.c:628-631, 730-733, 752-755, 785-788, 852-855: storing values in an array on the
    stack, from element [i] on, through register [r]. *)
Fixpoint store_args (r : reg) (i : nat) (vs : list var) : list line :=
  match vs with
  | [] => []
  | v :: rest => get_var r v :: Ins (Str r SP (zoff i)) :: store_args r (S i) rest
  end.

(** lib/aarch64.c:620-891: instruction [i] at [pc] of function [f].  [None] if the name of a
    function cannot be printed, scope.xs is read out of bounds (lib/aarch64.c:730-733) or the
    assertion of GetSingleTarget fails. *)
Definition emit_main (names : list str) (f pc : nat) (i : instr) : option (list line) :=
  match i with
  | IStruct args dest =>
    Some (Ins (SubI SP SP (stack_bytes (length args))) :: store_args X0 0 args ++
          [Ins (MovR X0 RHeap); Ins (MovI X1 (Z.of_nat (length args))); Ins (MovR X2 SP); Ins (Bl ENewStruct);
           set_var X0 dest; Ins (AddI SP SP (stack_bytes (length args)))])
  | IUnion tag arg dest =>
    Some [Ins (MovR X0 RHeap); Ins (MovI X1 (Z.of_nat tag)); get_var X2 arg; Ins (Bl ENewUnion); set_var X0 dest]
  | IAccess true obj tag dest =>
    Some [get_var X0 obj; Ins (MovI X1 (Z.of_nat tag)); Ins (Bl EStructField); set_var X0 dest; Ins (Cbz X0 (LOut f pc OUndef))]
  | IAccess false obj tag dest =>
    Some [get_var X0 obj; Ins (MovI X1 (Z.of_nat tag)); Ins (Bl EUnionField); set_var X0 dest; Ins (Cbz X0 (LOut f pc OUndef));
          Ins (CmpI X0 2); Ins (Beq (LOut f pc OBadTag))]
  | ISelect cond num_tags targets default =>
    match emit_search (length targets) f pc 0 num_tags targets default 0 with
    | Some (x, _) =>
      Some ([get_var X0 cond; Ins (Bl EUnionTag); Ins (CmpI X0 (-1)); Ins (Beq (LOut f pc OUndef))] ++ x)
    | None => None
    end
  | IGoto target => Some [Ins (B (LPc f target))]
  | IFunc dest offset c scope =>
    match asm_symbol names (code_block c) with
    | None => None
    | Some g =>
      if code_num_statics c <=? length scope then
        Some ([Data (LExe f pc) (DExe (mk_exe (code_num_args c) (code_num_statics c) g));
               Ins (SubI SP SP (stack_bytes (code_num_statics c)))] ++
              store_args X0 0 (firstn (code_num_statics c) scope) ++
              [Ins (MovR X0 RHeap); Ins (Adr X1 (LExe f pc)); Ins (AddI X2 RBlock (Z.of_nat offset)); Ins (MovR X3 SP);
               Ins (Bl ENewFunc); set_var X0 dest; Ins (AddI SP SP (stack_bytes (code_num_statics c)))])
      else None
    end
  | ICall func args dest =>
    Some (Ins (SubI SP SP (stack_bytes (length args))) :: store_args X0 0 args ++
          [Ins (MovR X0 RHeap); Ins (MovR X1 RProfile); get_var X2 func; Ins (MovI X3 (Z.of_nat (length args))); Ins (MovR X4 SP);
           Ins (Bl ECall); set_var X0 dest; Ins (AddI SP SP (stack_bytes (length args))); Ins (Cbz X0 (LOut f pc OAbort))])
  | ITail func args =>
    Some ([get_var X0 func; Ins (Bl EFuncFunction); Ins (Cbz X0 (LOut f pc OUndef)); Ins (MovR X1 X0); Ins (MovR X0 RHeap);
           get_var X2 func; Ins (SubI SP SP (stack_bytes (length args)))] ++ store_args X9 0 args ++
          [Ins (MovI X3 (Z.of_nat (length args))); Ins (MovR X4 SP); Ins (Bl ETailCall);
           Ins (AddI SP SP (stack_bytes (length args))); Ins (B (LExit f))])
  | ICopy src dest => Some [get_var X1 src; set_var X1 dest]
  | IRef dest => Some [Ins (MovR X0 RHeap); Ins (Bl ENewRef); set_var X0 dest]
  | IRefDef ref value =>
    Some [Ins (MovR X0 RHeap); get_var X1 (Local ref); get_var X2 value; Ins (Bl EAssignRef); Ins (Cbz X0 (LOut f pc OVacuous))]
  | IReturn v => Some [get_var X0 v; Ins (B (LExit f))]
  | IType dest => Some [Ins (Adr X0 GTypeValue); Ins (Ldr X0 X0 0); set_var X0 dest]
  | IList args dest =>
    Some (Ins (SubI SP SP (stack_bytes (length args))) :: store_args X9 0 args ++
          [Ins (MovR X0 RHeap); Ins (MovI X1 (Z.of_nat (length args))); Ins (MovR X2 SP); Ins (Bl ENewList);
           set_var X0 dest; Ins (AddI SP SP (stack_bytes (length args)))])
  | ILiteral letters dest =>
    Some [Data (LLetters f pc) (DLetters letters);
          Ins (MovR X0 RHeap); Ins (MovI X1 (Z.of_nat (length letters))); Ins (Adr X2 (LLetters f pc)); Ins (Bl ENewLiteral); set_var X0 dest]
  | INop => Some []
  end.

(** lib/aarch64.c:615-618: before an instruction with profile operations. *)
Definition emit_prof (f pc : nat) (ops : list prof_op) : list line :=
  match ops with [] => [] | _ => [Ins (Cbnz RProfile (LOut f pc OProfile)); Lab (LPp f pc)] end.

(** lib/aarch64.c:1062-1065: the main path from instruction [pc] on. *)
Fixpoint emit_body (names : list str) (f pc : nat) (l : list (list prof_op * instr)) : option (list line) :=
  match l with
  | [] => Some []
  | (ops, i) :: r =>
    match emit_main names f pc i, emit_body names f (S pc) r with
    | Some x, Some y => Some (Lab (LPc f pc) :: emit_prof f pc ops ++ x ++ y)
    | _, _ => None
    end
  end.

(** lib/aarch64.c:913-944. *)
Definition emit_op (op : prof_op) : list line :=
  match op with
  | OEnter a => [Ins (MovR X0 RProfile); Ins (MovR X1 RBlock); Ins (AddI X1 X1 (Z.of_nat a)); Ins (Bl EEnter)]
  | OReplace a => [Ins (MovR X0 RProfile); Ins (MovR X1 RBlock); Ins (AddI X1 X1 (Z.of_nat a)); Ins (Bl EReplace)]
  | OExit => [Ins (MovR X0 RProfile); Ins (Bl EExit)]
  | OSample a => [Ins (MovR X0 RProfile); Ins (MovI X1 (Z.of_nat a)); Ins (Bl ESample)]
  end.

(** lib/aarch64.c:911-946: the profile operations of an instruction. *)
Definition outline_prof (f pc : nat) (ops : list prof_op) : list line :=
  match ops with
  | [] => []
  | _ => Lab (LOut f pc OProfile) :: flat_map emit_op ops ++ [Ins (B (LPp f pc))]
  end.
(** lib/aarch64.c:948-1014: its errors. *)
Definition outline_err (f pc : nat) (i : instr) : list line :=
  match i with
  | IAccess true _ _ _ => Lab (LOut f pc OUndef) :: do_abort f MStruct
  | IAccess false _ _ dest =>
    (Lab (LOut f pc OUndef) :: do_abort f MUnion) ++ Lab (LOut f pc OBadTag) :: set_var XZR dest :: do_abort f MWrong
  | ISelect _ _ _ _ => Lab (LOut f pc OUndef) :: do_abort f MSelect
  | ICall _ _ _ => Lab (LOut f pc OAbort) :: do_abort f MCallee
  | ITail _ _ => (Lab (LOut f pc OUndef) :: do_abort f MFunction) ++ Lab (LOut f pc OAbort) :: do_abort f MCallee
  | IRefDef _ _ => Lab (LOut f pc OVacuous) :: do_abort f MVacuous
  | _ => []
  end.
(** lib/aarch64.c:909-1015 EmitOutlineCode. *)
Definition emit_outline (f pc : nat) (ops : list prof_op) (i : instr) : list line := outline_prof f pc ops ++ outline_err f pc i.

(** lib/aarch64.c:1077-1079. *)
Fixpoint emit_outlines (f pc : nat) (l : list (list prof_op * instr)) : list line :=
  match l with
  | [] => []
  | (ops, i) :: r => emit_outline f pc ops i ++ emit_outlines f (S pc) r
  end.

(** lib/aarch64.c:1042-1059.  sizeof(RunStackFrame) and offsetof(RunStackFrame, locals) are 64,
    r_heap_save, r_args_save and r_profile_block_id_save are at 16, 32 and 48
    (lib/aarch64.c:54-64); profile_block_id and statics of FbleFunction are at 24 and 32
    (include/fble/fble-function.h:51-73). *)
Definition prologue (locals : nat) : list line :=
  [Ins (SubI SP SP (stack_bytes locals)); Ins (StpPre FP LR SP (-64)); Ins (MovR FP SP);
   Ins (Stp RHeap RLocals SP 16); Ins (Stp RArgs RStatics SP 32); Ins (Stp RBlock RProfile SP 48);
   Ins (Ldr RStatics X2 32); Ins (Ldr RBlock X2 24); Ins (MovR RHeap X0); Ins (MovR RArgs X3); Ins (MovR RProfile X1);
   Ins (AddI RLocals SP 64)].

(** lib/aarch64.c:1068-1074. *)
Definition epilogue (f locals : nat) : list line :=
  [Lab (LExit f); Ins (Ldp RHeap RLocals SP 16); Ins (Ldp RArgs RStatics SP 32); Ins (Ldp RBlock RProfile SP 48);
   Ins (LdpPost FP LR SP 64); Ins (AddI SP SP (stack_bytes locals)); Ins Ret_].

(** lib/aarch64.c:1026-1082 EmitCode. *)
Definition asm_code (names : list str) (c : code) : option (list line) :=
  match asm_symbol names (code_block c), emit_body names (code_block c) 0 (code_instrs c) with
  | Some s, Some b =>
    Some (Lab (LSym s) :: prologue (code_num_locals c) ++ b ++ epilogue (code_block c) (code_num_locals c) ++
          emit_outlines (code_block c) 0 (code_instrs c) ++ [Lab (LHigh (code_block c))])
  | _, _ => None
  end.

(** A generated assembly file: the FbleGeneratedModule it defines (as for C), and its lines. *)
Record aunit := mk_aunit { a_label : str; a_path : path; a_deps : list str; a_exe : exe; a_lines : list line }.

(** lib/aarch64.c:1187-1415 FbleGenerateAArch64 and 345-387 StaticGeneratedModule, without
    error messages, locations, names and debug information. *)
Definition asm_generate (names : list str) (m : cmodule) : option aunit :=
  match label_for_path (c_path m), all_some (map label_for_path (c_deps m)),
        asm_symbol names (code_block (c_code m)), all_some (map (asm_code names) (collect (c_code m))) with
  | Some l, Some ds, Some s, Some fs =>
    Some (mk_aunit l (c_path m) ds (mk_exe (code_num_args (c_code m)) (code_num_statics (c_code m)) s) (concat fs))
  | _, _, _, _ => None
  end.

(** ** The machine *)

(** The contents of a register or of 8 bytes of memory.  Integers are not bounded; -1 stands
    for SIZE_MAX, above all others.  [WCaller r] is what the caller had in [r]. *)
Inductive word :=
| WUndef
| WVal (v : gval)                      (* an FbleValue* other than NULL and FbleWrongUnionTag *)
| WInt (z : Z)                         (* NULL is 0, FbleWrongUnionTag 2 *)
| WStack (a : Z)                       (* an address in the stack *)
| WHeap | WProf | WFunction            (* the arguments of a run function: heap, profile, function, *)
| WStatics | WArgs                     (* args; and function->statics *)
| WFn (fn : gval)                      (* the FbleFunction of a function value *)
| WTail (f : gval) (args : list gval)  (* TailCallSentinel and what gTailCallData holds *)
| WAdr (l : label)                     (* the address of a label *)
| WStderr
| WCaller (r : reg).

Inductive flags := FEq | FLess | FMore | FDiffer | FUndef.

Record mach := mk_mach { rf : reg -> word; mem : Z -> word; fl : flags }.

Definition upd (r : reg) (w : word) (f : reg -> word) : reg -> word := fun x => if reg_beq x r then w else f x.
Definition set_reg (r : reg) (w : word) (m : mach) : mach := mk_mach (upd r w (rf m)) (mem m) (fl m).
Definition set_mem (a : Z) (w : word) (m : mach) : mach := mk_mach (rf m) (fun x => if (x =? a)%Z then w else mem m x) (fl m).
Definition set_flags (c : flags) (m : mach) : mach := mk_mach (rf m) (mem m) c.

(** The register as a source: XZR reads as 0. *)
Definition src (m : mach) (r : reg) : word := match r with XZR => WInt 0 | _ => rf m r end.

(** Equality of values, as far as the machine needs it (for functions of the same payload). *)
Definition cpay_eqb (a b : cpay) : bool :=
  match a, b with
  | CFn i f, CFn j g => (i =? j) && (if list_eq_dec Z.eq_dec f g then true else false)
  | CMain _, CMain _ => true
  | _, _ => false
  end.
Fixpoint val_eqb (a b : gval) : bool :=
  let vals_eqb := (fix vals_eqb (l m : list gval) : bool :=
    match l, m with
    | [], [] => true
    | x :: l', y :: m' => val_eqb x y && vals_eqb l' m'
    | _, _ => false
    end) in
  match a, b with
  | VStruct xs, VStruct ys => vals_eqb xs ys
  | VUnion t x, VUnion u y => (t =? u) && val_eqb x y
  | VFunc n p k xs, VFunc m q j ys => (n =? m) && cpay_eqb p q && (k =? j) && vals_eqb xs ys
  | VPapp n k f xs, VPapp m j g ys => (n =? m) && (k =? j) && val_eqb f g && vals_eqb xs ys
  | VRef l, VRef m => l =? m
  | VType, VType => true
  | _, _ => false
  end.

Section machine.
  (** FbleCall. *)
  Variable callf : gst -> gval -> list gval -> gres.
  (** The number of the assembly file and its lines; the profile block, statics and arguments
      of the function, and SP when it is entered. *)
  Variables (tu : nat) (file : list line) (block : nat) (statics args : list gval) (entry : Z).

  (** The 8 bytes at [a] are between SP and the frame of the caller, and aligned. *)
  Definition in_frame (m : mach) (a : Z) : bool :=
    match rf m SP with
    | WStack sp => ((sp <=? a) && (a + 8 <=? entry) && (a mod 8 =? 0))%Z
    | _ => false
    end.
  (** SP must be a multiple of 16 when it is the base of an access. *)
  Definition base_ok (m : mach) (b : reg) : bool :=
    match b, rf m SP with
    | SP, WStack sp => (sp mod 16 =? 0)%Z
    | SP, _ => false
    | _, _ => true
    end.

  (** Element [off / 8] of an array of values. *)
  Definition elem (xs : list gval) (off : Z) : option word :=
    if ((0 <=? off) && (off mod 8 =? 0))%Z then option_map WVal (nth_error xs (Z.to_nat (off / 8))) else None.

  Definition load (m : mach) (b : reg) (off : Z) : option word :=
    if base_ok m b then
      match rf m b with
      | WStack a => if in_frame m (a + off) then Some (mem m (a + off)%Z) else None
      | WStatics => elem statics off
      | WArgs => elem args off
      | WFunction => if (off =? 24)%Z then Some (WInt (Z.of_nat block)) else if (off =? 32)%Z then Some WStatics else None
      | WAdr GStderr => if (off =? 0)%Z then Some WStderr else None
      | WAdr GTypeValue => if (off =? 0)%Z then Some (WVal VType) else None
      | _ => None
      end
    else None.

  Definition store (m : mach) (w : word) (b : reg) (off : Z) : option mach :=
    if base_ok m b then
      match rf m b with
      | WStack a => if in_frame m (a + off) then Some (set_mem (a + off) w m) else None
      | _ => None
      end
    else None.

  (** The [n] values in the array at [w]. *)
  Fixpoint read_vals (m : mach) (a : Z) (n : nat) : option (list gval) :=
    match n with
    | O => Some []
    | S n' =>
      if in_frame m a then
        match mem m a, read_vals m (a + 8) n' with
        | WVal v, Some vs => Some (v :: vs)
        | _, _ => None
        end
      else None
    end.
  Definition read_array (m : mach) (w : word) (n : Z) : option (list gval) :=
    match w with
    | WStack a => if (0 <=? n)%Z then read_vals m a (Z.to_nat n) else None
    | _ => None
    end.

  (** The position of a label in the file: the lines from there on. *)
  Fixpoint find_pos (l : label) (x : list line) : option (list line) :=
    match x with
    | [] => None
    | Lab l' :: r => if label_eqb l l' then Some x else find_pos l r
    | _ :: r => find_pos l r
    end.
  Fixpoint find_data (l : label) (x : list line) : option data :=
    match x with
    | [] => None
    | Data l' d :: r => if label_eqb l l' then Some d else find_data l r
    | _ :: r => find_data l r
    end.

  (** A function of the runtime, with its arguments in x0 to x5 as its C declaration says; the
      functions are those of FuncModel, as for the interpreter. *)
  Inductive xres := XRet (w : word) (s : gst) | XStop (o : out cpay) (s : gst).
  Definition ext (e : extern) (m : mach) (s : gst) : xres :=
    match e, rf m X0, rf m X1, rf m X2, rf m X3, rf m X4 with
    | ENewStruct, WHeap, WInt n, a, _, _ =>
      match read_array m a n with Some xs => XRet (WVal (VStruct xs)) s | None => XStop Crash s end
    | ENewList, WHeap, WInt n, a, _, _ =>
      match read_array m a n with Some xs => XRet (WVal (list_value xs)) s | None => XStop Crash s end
    | ENewLiteral, WHeap, WInt n, WAdr l, _, _ =>
      match find_data l file with
      | Some (DLetters xs) =>
        if ((0 <=? n) && (n <=? Z.of_nat (length xs)))%Z then XRet (WVal (literal_value (firstn (Z.to_nat n) xs))) s else XStop Crash s
      | _ => XStop Crash s
      end
    | ENewUnion, WHeap, WInt t, WVal v, _, _ => if (0 <=? t)%Z then XRet (WVal (VUnion (Z.to_nat t) v)) s else XStop Crash s
    | EStructField, WVal o, WInt t, _, _, _ =>
      match strict_value (refs s) o with
      | SUndef => XRet (WInt 0) s
      | SVal (VStruct fs) =>
        if (0 <=? t)%Z then match nth_error fs (Z.to_nat t) with Some v => XRet (WVal v) s | None => XStop Crash s end else XStop Crash s
      | _ => XStop Crash s
      end
    | EUnionField, WVal o, WInt t, _, _, _ =>
      match strict_value (refs s) o with
      | SUndef => XRet (WInt 0) s
      | SVal (VUnion u v) => XRet (if (Z.of_nat u =? t)%Z then WVal v else WInt 2) s
      | _ => XStop Crash s
      end
    | EUnionTag, WVal o, _, _, _, _ =>
      match strict_value (refs s) o with
      | SUndef => XRet (WInt (-1)) s
      | SVal (VUnion u _) => XRet (WInt (Z.of_nat u)) s
      | _ => XStop Crash s
      end
    | ENewFunc, WHeap, WAdr l, WInt b, a, _ =>
      match find_data l file with
      | Some (DExe x) =>
        match read_array m a (Z.of_nat (x_statics x)) with
        | Some vs => if (0 <=? b)%Z then XRet (WVal (VFunc (x_args x) (CFn tu (x_run x)) (Z.to_nat b) vs)) s else XStop Crash s
        | None => XStop Crash s
        end
      | _ => XStop Crash s
      end
    | ECall, WHeap, WProf, WVal f, WInt n, a =>
      match read_array m a n with
      | Some xs =>
        match callf s f xs with
        | (Ret v, s') => XRet (WVal v) s'
        | (Abort, s') => XRet (WInt 0) s'
        | (Tail _ _, s') => XStop Crash s'
        | (o, s') => XStop o s'
        end
      | None => XStop Crash s
      end
    | EFuncFunction, WVal f, _, _, _, _ =>
      match strict_value (refs s) f with
      | SUndef => XRet (WInt 0) s
      | SBad => XStop Crash s
      | SVal fn => match num_args_of fn with Some _ => XRet (WFn fn) s | None => XStop Crash s end
      end
    | ETailCall, WHeap, WFn fn, WVal f, WInt n, a =>
      match read_array m a n, strict_value (refs s) f with
      | Some xs, SVal fn' => if val_eqb fn fn' then XRet (WTail f xs) s else XStop Crash s
      | _, _ => XStop Crash s
      end
    | ENewRef, WHeap, _, _, _, _ => let '(r, s') := new_ref s in XRet (WVal r) s'
    | EAssignRef, WHeap, WVal r, WVal v, _, _ =>
      match assign_ref s r v with
      | Some (Some s') => XRet (WInt 1) s'
      | Some None => XRet (WInt 0) s
      | None => XStop Crash s
      end
    | EEnter, WProf, WInt b, _, _, _ => if (0 <=? b)%Z then XRet WUndef (log (PEnter (Z.to_nat b)) s) else XStop Crash s
    | EReplace, WProf, WInt b, _, _, _ => if (0 <=? b)%Z then XRet WUndef (log (PReplace (Z.to_nat b)) s) else XStop Crash s
    | EExit, WProf, _, _, _, _ => XRet WUndef (log PExit s)
    | ESample, WProf, WInt t, _, _, _ => if (0 <=? t)%Z then XRet WUndef (log (PSample (Z.to_nat t)) s) else XStop Crash s
    | EFprintf, WStderr, WAdr GFormat, WAdr GLoc, WInt _, WInt _ =>
      match rf m X5 with WAdr (GMsg _) => XRet WUndef s | _ => XStop Crash s end
    | _, _, _, _, _, _ => XStop Crash s
    end.

  (** What a function may change besides its result: x0 to x18, x30, the flags and the memory
      below SP. *)
  Definition clobber (w : word) (m : mach) : mach :=
    mk_mach (fun r => match r with X0 => w | X1 | X2 | X3 | X4 | X5 | X9 | LR => WUndef | _ => rf m r end)
      (match rf m SP with WStack sp => fun a => if (a <? sp)%Z then WUndef else mem m a | _ => fun _ => WUndef end) FUndef.

  (** At ret: the link register, SP and the registers a function must preserve. *)
  Definition restored (m : mach) : bool :=
    match rf m SP with WStack sp => (sp =? entry)%Z | _ => false end &&
    forallb (fun r => match rf m r with WCaller r' => reg_beq r r' | _ => false end)
      [RHeap; RLocals; RArgs; RStatics; RBlock; RProfile; FP; LR].

  Definition add_word (w : word) (i : Z) : word :=
    match w with WStack a => WStack (a + i) | WInt z => WInt (z + i) | _ => WUndef end.

  (** cmp: pointers are not FbleWrongUnionTag, nothing more is known about them. *)
  Definition compare (w : word) (i : Z) : flags :=
    match w with
    | WInt z =>
      if (z =? i)%Z then FEq
      else if (i =? -1)%Z then FLess else if (z =? -1)%Z then FMore else if (z <? i)%Z then FLess else FMore
    | WVal _ => if (i =? 2)%Z then FDiffer else FUndef
    | _ => FUndef
    end.
  (** Is the word 0? *)
  Definition is_zero (w : word) : option bool :=
    match w with
    | WInt z => Some (z =? 0)%Z
    | WVal _ | WStack _ | WHeap | WProf | WFunction | WFn _ | WTail _ _ | WAdr _ => Some false
    | _ => None
    end.

  Inductive sres := SNext (m : mach) (s : gst) | SJump (l : label) (m : mach) (s : gst) | SStop (o : out cpay) (s : gst).
  Definition snext (o : option mach) (s : gst) : sres := match o with Some m => SNext m s | None => SStop Crash s end.

  Definition step (i : ins) (m : mach) (s : gst) : sres :=
    match i with
    | Ldr d b off => match load m b off with Some w => SNext (set_reg d w m) s | None => SStop Crash s end
    | Str r b off => snext (store m (src m r) b off) s
    | Stp r1 r2 b off =>
      match store m (src m r1) b off with Some m' => snext (store m' (src m r2) b (off + 8)) s | None => SStop Crash s end
    | StpPre r1 r2 b off =>
      let m0 := set_reg b (add_word (rf m b) off) m in
      match store m0 (src m r1) b 0 with Some m' => snext (store m' (src m r2) b 8) s | None => SStop Crash s end
    | Ldp d1 d2 b off =>
      match load m b off, load m b (off + 8) with
      | Some w1, Some w2 => SNext (set_reg d2 w2 (set_reg d1 w1 m)) s
      | _, _ => SStop Crash s
      end
    | LdpPost d1 d2 b off =>
      match load m b 0, load m b 8 with
      | Some w1, Some w2 => SNext (set_reg b (add_word (rf m b) off) (set_reg d2 w2 (set_reg d1 w1 m))) s
      | _, _ => SStop Crash s
      end
    | MovR d r => SNext (set_reg d (src m r) m) s
    | MovI d z => SNext (set_reg d (WInt z) m) s
    | AddI d r z => SNext (set_reg d (add_word (rf m r) z) m) s
    | SubI d r z => SNext (set_reg d (add_word (rf m r) (- z)) m) s
    | CmpI r z => SNext (set_flags (compare (rf m r) z) m) s
    | B l => SJump l m s
    | Beq l => match fl m with FEq => SJump l m s | FUndef => SStop Crash s | _ => SNext m s end
    | Bcc l => match fl m with FLess => SJump l m s | FUndef | FDiffer => SStop Crash s | _ => SNext m s end
    | Cbz r l => match is_zero (rf m r) with Some true => SJump l m s | Some false => SNext m s | None => SStop Crash s end
    | Cbnz r l => match is_zero (rf m r) with Some false => SJump l m s | Some true => SNext m s | None => SStop Crash s end
    | Bl e =>
      if base_ok m SP then
        match ext e m s with
        | XRet w s' => SNext (clobber w m) s'
        | XStop o s' => SStop o s'
        end
      else SStop Crash s
    | Br _ => SStop Crash s
    | Ret_ =>
      if restored m then
        match rf m X0 with
        | WVal v => SStop (Ret v) s
        | WInt z => if (z =? 0)%Z then SStop Abort s else SStop Crash s
        | WTail f xs => SStop (Tail f xs) s
        | _ => SStop Crash s
        end
      else SStop Crash s
    | Adr d l => SNext (set_reg d (WAdr l) m) s
    end.

  (** Running the lines [x] of the file, [k] of them at most: generated code only jumps
      forward or to code that jumps back past the jump, so that no line is executed twice
      and the number of lines is enough (AsmRun). *)
  Fixpoint run (k : nat) (x : list line) (m : mach) (s : gst) : gres :=
    match k with
    | O => (Crash, s)
    | S k' =>
      match x with
      | [] => (Crash, s)
      | Ins i :: r =>
        match step i m s with
        | SNext m' s' => run k' r m' s'
        | SStop o s' => (o, s')
        | SJump l m' s' => match find_pos l file with Some r' => run k' r' m' s' | None => (Crash, s') end
        end
      | _ :: r => run k' r m s
      end
    end.

  (** The machine when a run function is called (include/fble/fble-function.h:38-43). *)
  Definition start : mach :=
    mk_mach (fun r => match r with
                      | X0 => WHeap | X1 => WProf | X2 => WFunction | X3 => WArgs | SP => WStack entry
                      | X4 | X5 | X9 => WUndef | XZR => WInt 0
                      | r => WCaller r
                      end) (fun _ => WUndef) FUndef.
End machine.

(** FbleExecutable.run in the program made of the assembly files [aus]; [entry] is SP when
    a function is called in a state. *)
Definition asm_run (entry : gst -> Z) (aus : list aunit) (callf : gst -> gval -> list gval -> gres) (p : cpay) (block : nat)
  (statics args : list gval) (s : gst) : gres :=
  match p with
  | CFn i f =>
    match nth_error aus i with
    | None => (Crash, s)
    | Some au =>
      match find_pos (LSym f) (a_lines au) with
      | None => (Crash, s)
      | Some x => run callf i (a_lines au) block statics args (entry s) (length (a_lines au)) x (start (entry s)) s
      end
    end
  | CMain c => main_loop callf statics args (code_instrs c) (repeat Uninit (code_num_locals c)) s
  end.

(** FbleCall in that program. *)
Definition acall (entry : gst -> Z) (aus : list aunit) (n : nat) : gst -> gval -> list gval -> gres := call (asm_run entry aus) n.

(** Linking: the FbleGeneratedModule of an assembly file is that of a C file. *)
Definition data_of (au : aunit) : tunit := mk_tunit (a_label au) (a_path au) (a_deps au) (a_exe au) [] [].
