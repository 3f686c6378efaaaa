(** * lib/code.h and lib/interpret.c: the bytecode and its interpreter. *)
From Coq Require Import List Arith Lia Bool.
From Verif Require Import FuncModel.
Import ListNotations.

(** lib/var.h:14-41 FbleVar. *)
Inductive var := Static (i : nat) | Arg (i : nat) | Local (i : nat).

(** lib/code.h:18-40 FbleProfileOp. *)
Inductive prof_op := OEnter (arg : nat) | OReplace (arg : nat) | OExit | OSample (arg : nat).

(** lib/code.h:94-470: the instructions, without their source locations (used in error
    messages only); FbleAccessInstr is [IAccess] with [is_struct] for its tag.  A [code] is
    an FbleCode: num_args, num_statics, num_locals, profile_block_id, and its instructions
    with their profile operations (debug info is left out). *)
Inductive instr :=
| IStruct (args : list var) (dest : nat)
| IUnion (tag : nat) (arg : var) (dest : nat)
| IAccess (is_struct : bool) (obj : var) (tag : nat) (dest : nat)
| ISelect (condition : var) (num_tags : nat) (targets : list (nat * nat)) (default : nat)
| IGoto (target : nat)
| IFunc (dest : nat) (offset : nat) (c : code) (scope : list var)
| ICall (func : var) (args : list var) (dest : nat)
| ITail (func : var) (args : list var)
| ICopy (source : var) (dest : nat)
| IRef (dest : nat)
| IRefDef (ref : nat) (value : var)
| IReturn (result : var)
| IType (dest : nat)
| IList (args : list var) (dest : nat)
| ILiteral (letters : list nat) (dest : nat)
| INop
with code := Code (num_args num_statics num_locals block : nat) (instrs : list (list prof_op * instr)).

Definition code_num_args (c : code) := let 'Code n _ _ _ _ := c in n.
Definition code_num_statics (c : code) := let 'Code _ n _ _ _ := c in n.
Definition code_num_locals (c : code) := let 'Code _ _ n _ _ := c in n.
Definition code_block (c : code) := let 'Code _ _ _ n _ := c in n.
Definition code_instrs (c : code) := let 'Code _ _ _ _ l := c in l.

Notation cval := (val code).
Notation cst := (st code).
Notation cres := (res code).

(** lib/interpret.c:168-184: the binary search of a select instruction: the target for
    [tag] in [targets], [default] if there is none.  [k] bounds the number of iterations;
    [None]: a read out of bounds. *)
Fixpoint select_search (k : nat) (targets : list (nat * nat)) (default tag lo hi : nat) : option nat :=
  if lo <? hi then
    match k with
    | O => None
    | S k' =>
      let mid := (lo + hi) / 2 in
      match nth_error targets mid with
      | None => None
      | Some (mid_tag, target) =>
        if tag =? mid_tag then Some target
        else if tag <? mid_tag then select_search k' targets default tag lo mid
        else select_search k' targets default tag (mid + 1) hi
      end
    end
  else Some default.

(** [None] too if the tag is not below [num_tags], the number of possible tags
    (lib/code.h:277): the interpreter relies on that only in that it does not look at
    [num_tags] (CodeProps.num_tags_not_read); the code from lib/aarch64.c goes anywhere in
    that case (AsmSearch). *)
Definition select_target (num_tags : nat) (targets : list (nat * nat)) (default tag : nat) : option nat :=
  match targets with
  | [] => None (* lib/interpret.c:168: assert(select_instr->targets.size > 0) *)
  | _ :: _ =>
    if tag <? num_tags then select_search (length targets) targets default tag 0 (length targets) else None
  end.

(** lib/interpret.c:73-93: the profile operations of an instruction, for a function with
    profile block id [block].  The log of [st] is what the profiler is told; without a
    profile thread the calls are not made and nothing else changes. *)
Definition do_op (block : nat) (s : cst) (op : prof_op) : cst :=
  log (match op with
       | OEnter a => PEnter (block + a)
       | OReplace a => PReplace (block + a)
       | OExit => PExit
       | OSample t => PSample t
       end) s.
Definition do_ops (block : nat) (ops : list prof_op) (s : cst) : cst := fold_left (do_op block) ops s.

Section interpret.
  (** FbleCall. *)
  Variable callf : cst -> cval -> list cval -> cres.
  Variables (block : nat) (statics args : list cval).

  (** The locals: [None] for one that has not been written. *)
  Definition regs := list (option cval).

  (** lib/interpret.c:38 GET; [None]: out of bounds or not initialised. *)
  Definition get (l : regs) (v : var) : option cval :=
    match v with
    | Static i => nth_error statics i
    | Arg i => nth_error args i
    | Local i => match nth_error l i with Some (Some x) => Some x | _ => None end
    end.

  Fixpoint gets (l : regs) (vs : list var) : option (list cval) :=
    match vs with
    | [] => Some []
    | v :: r =>
      match get l v, gets l r with
      | Some x, Some xs => Some (x :: xs)
      | _, _ => None
      end
    end.

  Inductive step_res := Next (pc : nat) (l : regs) (s : cst) | Stop (o : out code) (s : cst).

  (** Writing a local: out of bounds is undefined behaviour. *)
  Definition put (pc dest : nat) (x : cval) (l : regs) (s : cst) : step_res :=
    if dest <? length l then Next pc (set_nth dest (Some x) l) s else Stop Crash s.

  (** Writing NULL or FbleWrongUnionTag to a local, then returning NULL. *)
  Definition fail (dest : nat) (l : regs) (s : cst) : step_res :=
    if dest <? length l then Stop Abort s else Stop Crash s.

  (** lib/interpret.c:95-304: one instruction. *)
  Definition exec (i : instr) (pc : nat) (l : regs) (s : cst) : step_res :=
    match i with
    | IStruct a dest =>
      match gets l a with
      | Some xs => put (S pc) dest (VStruct xs) l s
      | None => Stop Crash s
      end
    | IUnion tag a dest =>
      match get l a with
      | Some x => put (S pc) dest (VUnion tag x) l s
      | None => Stop Crash s
      end
    | IAccess is_struct obj tag dest =>
      match get l obj with
      | None => Stop Crash s
      | Some o =>
        match strict_value (refs s) o with
        | SUndef => fail dest l s
        | SBad => Stop Crash s
        | SVal (VStruct fs) =>
          if is_struct then
            match nth_error fs tag with
            | Some x => put (S pc) dest x l s
            | None => Stop Crash s
            end
          else Stop Crash s
        | SVal (VUnion t x) =>
          if is_struct then Stop Crash s
          else if t =? tag then put (S pc) dest x l s else fail dest l s
        | SVal _ => Stop Crash s
        end
      end
    | ISelect c num_tags targets default =>
      match get l c with
      | None => Stop Crash s
      | Some o =>
        match strict_value (refs s) o with
        | SUndef => Stop Abort s
        | SVal (VUnion t _) =>
          match select_target num_tags targets default t with
          | Some pc' => Next pc' l s
          | None => Stop Crash s
          end
        | _ => Stop Crash s
        end
      end
    | IGoto target => Next target l s
    | IFunc dest offset c scope =>
      match gets l scope with
      | Some xs =>
        if code_num_statics c <=? length xs then
          put (S pc) dest (VFunc (code_num_args c) c (block + offset) (firstn (code_num_statics c) xs)) l s
        else Stop Crash s
      | None => Stop Crash s
      end
    | ICall f a dest =>
      match get l f, gets l a with
      | Some fv, Some xs =>
        if dest <? length l then
          match callf s fv xs with
          | (Ret v, s') => put (S pc) dest v l s'
          | (Tail _ _, s') => Stop Crash s'
          | (o, s') => Stop o s'
          end
        else Stop Crash s (* locals[dest] is written, with NULL too, after the call *)
      | _, _ => Stop Crash s
      end
    | ITail f a =>
      match get l f with
      | None => Stop Crash s
      | Some fv =>
        match strict_value (refs s) fv with
        | SUndef => Stop Abort s
        | SBad => Stop Crash s
        | SVal fn =>
          match num_args_of fn, gets l a with
          | Some _, Some xs => Stop (Tail fv xs) s
          | _, _ => Stop Crash s
          end
        end
      end
    | ICopy v dest =>
      match get l v with
      | Some x => put (S pc) dest x l s
      | None => Stop Crash s
      end
    | IRef dest => let '(r, s') := new_ref s in put (S pc) dest r l s'
    | IRefDef r v =>
      match get l (Local r), get l v with
      | Some rv, Some x =>
        match assign_ref s rv x with
        | Some (Some s') => Next (S pc) l s'
        | Some None => Stop Abort s
        | None => Stop Crash s
        end
      | _, _ => Stop Crash s
      end
    | IReturn v =>
      match get l v with
      | Some x => Stop (Ret x) s
      | None => Stop Crash s
      end
    | IType dest => put (S pc) dest VType l s
    | IList a dest =>
      match gets l a with
      | Some xs => put (S pc) dest (list_value xs) l s
      | None => Stop Crash s
      end
    | ILiteral letters dest => put (S pc) dest (literal_value letters) l s
    | INop => Next (S pc) l s
    end.

  (** lib/interpret.c:70-307: the loop.  [k] bounds the number of iterations: the C loop
      has no bound, but the compiler only emits forward jumps, so that a run takes at most
      as many iterations as there are instructions (the theorems of CompileProofs show
      that no compiled code reaches this bound, which counts as a crash here). *)
  Fixpoint loop (k : nat) (instrs : list (list prof_op * instr)) (pc : nat) (l : regs) (s : cst) : cres :=
    match k with
    | O => (Crash, s)
    | S k' =>
      match nth_error instrs pc with
      | None => (Crash, s)
      | Some (ops, i) =>
        match exec i pc l (do_ops block ops s) with
        | Next pc' l' s' => loop k' instrs pc' l' s'
        | Stop o s' => (o, s')
        end
      end
    end.
End interpret.

(** lib/interpret.c:53-308 Interpret. *)
Definition interpret (callf : cst -> cval -> list cval -> cres) (c : code) (block : nat)
  (statics args : list cval) (s : cst) : cres :=
  loop callf block statics args (length (code_instrs c)) (code_instrs c) 0 (repeat None (code_num_locals c)) s.

(** FbleCall on interpreted functions. *)
Definition icall (n : nat) : cst -> cval -> list cval -> cres := call interpret n.
