(** * The calling convention of lib/value.c over abstract values.

    Values are the data the FbleNew... and accessor functions of lib/value.c build and
    read (that their heap representation behaves as these trees, whatever the packing and
    the garbage collector do, is what CoreProofs, ValueProps and GcMeaning prove).
    Reference values are indices in a store, so recursive values are finite. *)
From Coq Require Import List Arith Lia Bool.
Import ListNotations.

(** Profiling operations as FbleProfileEnterBlock, FbleProfileReplaceBlock,
    FbleProfileExitBlock and FbleProfileRandomSample see them (lib/profile.c). *)
Inductive prof_event := PEnter (b : nat) | PReplace (b : nat) | PExit | PSample (time : nat).

Section values.
  (** What a function executes: FbleExecutable.run with the code it gets as its last static
      (lib/interpret.c:310-328). *)
  Variable B : Type.

  (** The FbleValue of lib/value.c:146-254.  [VFunc] is a FUNC_VALUE whose run function is
      user code, [VPapp] one whose run function is PartialApplyImpl: statics[0] is the
      function, the other statics the arguments so far (lib/value.c:1505-1517).
      [VType] is FbleGenericTypeValue. *)
  Inductive val :=
  | VStruct (fields : list val)
  | VUnion (tag : nat) (arg : val)
  | VFunc (num_args : nat) (b : B) (block : nat) (statics : list val)
  | VPapp (num_args : nat) (block : nat) (func : val) (args : list val)
  | VRef (l : nat)
  | VType.

  (** The state a call can change: the targets of the reference values ([None] before
      FbleAssignRefValue), the number of frames pushed, and the profile calls made, last
      first. *)
  Record st := mk_st { refs : list (option val); depth : nat; prof : list prof_event }.

  (** The results of running a function: a value, the TailCallSentinel with what FbleTailCall
      stored in gTailCallData (lib/value.c:1699-1707; nothing runs between the store and the
      read in FbleCall or TailCall), NULL, a failed assertion or undefined behaviour, and
      the model's [Timeout] when it runs out of fuel. *)
  Inductive out := Ret (v : val) | Tail (f : val) (args : list val) | Abort | Crash | Timeout.

  Inductive strict := SVal (v : val) | SUndef | SBad.

  (** lib/value.c:848-862 StrictValue; [SBad] for a dangling reference or a cycle of
      references, on which the C code loops. *)
  Fixpoint strict_fuel (k : nat) (r : list (option val)) (v : val) : strict :=
    match v with
    | VRef l =>
      match nth_error r l with
      | Some (Some v') => match k with O => SBad | S k' => strict_fuel k' r v' end
      | Some None => SUndef
      | None => SBad
      end
    | _ => SVal v
    end.
  Definition strict_value (r : list (option val)) (v : val) : strict :=
    strict_fuel (length r) r v.

  (** lib/value.c:1777-1782 FbleNewRefValue. *)
  Definition new_ref (s : st) : val * st :=
    (VRef (length (refs s)), mk_st (refs s ++ [None]) (depth s) (prof s)).

  Fixpoint set_nth {A} (n : nat) (x : A) (l : list A) : list A :=
    match l, n with
    | [], _ => []
    | _ :: r, O => x :: r
    | y :: r, S n' => y :: set_nth n' x r
    end.

  (** lib/value.c:1792-1796: the unwrapping loop of FbleAssignRefValue. *)
  Fixpoint unwrap_fuel (k : nat) (r : list (option val)) (v : val) : option val :=
    match v with
    | VRef l =>
      match nth_error r l with
      | Some (Some v') => match k with O => None | S k' => unwrap_fuel k' r v' end
      | Some None => Some v
      | None => None
      end
    | _ => Some v
    end.

  (** lib/value.c:1785-1806 FbleAssignRefValue: [None] is a failed assertion or an endless
      loop, [Some None] the result false. *)
  Definition assign_ref (s : st) (ref v : val) : option (option st) :=
    match ref with
    | VRef l =>
      match unwrap_fuel (length (refs s)) (refs s) v with
      | Some (VRef l') =>
        if l' =? l then Some None
        else Some (Some (mk_st (set_nth l (Some (VRef l')) (refs s)) (depth s) (prof s)))
      | Some w => Some (Some (mk_st (set_nth l (Some w) (refs s)) (depth s) (prof s)))
      | None => None
      end
    | _ => None
    end.

  (** lib/value.c:1736-1747 FbleNewListValue. *)
  Fixpoint list_value (args : list val) : val :=
    match args with
    | [] => VUnion 1 (VStruct [])
    | a :: r => VUnion 0 (VStruct [a; list_value r])
    end.

  (** lib/value.c:1763-1774 FbleNewLiteralValue. *)
  Definition literal_value (letters : list nat) : val :=
    list_value (map (fun t => VUnion t (VStruct [])) letters).

  Definition log (e : prof_event) (s : st) : st := mk_st (refs s) (depth s) (e :: prof s).
  (** PushFrame and FblePopFrame (lib/value.c:1051-1135): only the number of frames. *)
  Definition push_frame (s : st) : st := mk_st (refs s) (S (depth s)) (prof s).
  (** [None]: popping the base frame. *)
  Definition pop_frame (s : st) : option st :=
    match depth s with O => None | S d => Some (mk_st (refs s) d (prof s)) end.

  Definition num_args_of (f : val) : option nat :=
    match f with VFunc n _ _ _ => Some n | VPapp n _ _ _ => Some n | _ => None end.
  Definition block_of (f : val) : nat :=
    match f with VFunc _ _ b _ => b | VPapp _ b _ _ => b | _ => 0 end.

  Definition res := (out * st)%type.

  (** FbleExecutable.run for user code, given how to call other functions, the profile
      block, the statics, the arguments. *)
  Variable run : (st -> val -> list val -> res) -> B -> nat -> list val -> list val -> st -> res.

  Definition pop_with (r : out) (s : st) : res :=
    match pop_frame s with Some s' => (r, s') | None => (Crash, s) end.

  (** lib/value.c:1505-1517 PartialApply; [fn] is the dereferenced [f]. *)
  Definition partial_apply (fn f : val) (args : list val) : val :=
    match num_args_of fn with
    | Some n => VPapp (n - length args) (block_of fn) f args
    | None => VPapp 0 0 f args
    end.

  (** exe->run: user code or PartialApplyImpl (lib/value.c:1475-1486). *)
  Definition run_fn (call : st -> val -> list val -> res) (s : st) (fn : val) (args : list val) : res :=
    match fn with
    | VFunc n b blk statics => run call b blk statics (firstn n args) s
    | VPapp n _ f sargs => call s f (sargs ++ firstn n args)
    | _ => (Crash, s)
    end.

  (** lib/value.c:1643-1695 FbleCall with [n] nested calls at most, and lib/value.c:1536-1585
      TailCall.  Arguments are lists, so unused is what comes after the first num_args. *)
  Fixpoint call (n : nat) (s : st) (f : val) (args : list val) : res :=
    match n with
    | O => (Timeout, s)
    | S n' =>
      match strict_value (refs s) f with
      | SUndef => (Abort, s)
      | SBad => (Crash, s)
      | SVal fn =>
        match num_args_of fn with
        | None => (Crash, s)
        | Some na =>
          if length args <? na then (Ret (partial_apply fn f args), s)
          else
            let unused := skipn na args in
            let '(r, s2) := run_fn (call n') (push_frame (log (PEnter (block_of fn)) s)) fn args in
            let '(r', s3) :=
              match r with
              | Tail g ys => tail_call n' s2 g (ys ++ unused)
              | Ret v =>
                match unused with
                | [] => pop_with (Ret v) s2
                | _ :: _ =>
                  match pop_frame s2 with
                  | Some s2' => call n' s2' v unused
                  | None => (Crash, s2)
                  end
                end
              | Abort => pop_with Abort s2
              | o => (o, s2)
              end in
            (r', log PExit s3)
        end
      end
    end
  with tail_call (n : nat) (s : st) (g : val) (xs : list val) : res :=
    match n with
    | O => (Timeout, s)
    | S n' =>
      match strict_value (refs s) g with
      | SVal fn =>
        match num_args_of fn with
        | None => (Crash, s)
        | Some na =>
          if length xs <? na then pop_with (Ret (partial_apply fn g xs)) s
          else
            let unused := skipn na xs in
            let '(r, s2) := run_fn (call n') (log (PReplace (block_of fn)) s) fn xs in
            match r with
            | Tail g' ys => tail_call n' s2 g' (ys ++ unused)
            | Ret v =>
              match unused with
              | [] => pop_with (Ret v) s2
              | _ :: _ =>
                let '(r', s3) := call n' s2 v unused in
                match r' with
                | Ret _ | Abort => pop_with r' s3
                | o => (o, s3)
                end
              end
            | Abort => pop_with Abort s2
            | o => (o, s2)
            end
        end
      | _ => (Crash, s)
      end
    end.
End values.

Arguments VStruct {B}. Arguments VUnion {B}. Arguments VFunc {B}. Arguments VPapp {B}.
Arguments VRef {B}. Arguments VType {B}. Arguments mk_st {B}. Arguments refs {B}. Arguments depth {B}.
Arguments prof {B}. Arguments Ret {B}. Arguments Tail {B}. Arguments Abort {B}. Arguments Crash {B}.
Arguments Timeout {B}. Arguments SVal {B}. Arguments SUndef {B}. Arguments SBad {B}.
Arguments strict_fuel {B}. Arguments strict_value {B}. Arguments new_ref {B}. Arguments unwrap_fuel {B}.
Arguments assign_ref {B}. Arguments list_value {B}. Arguments literal_value {B}. Arguments log {B}.
Arguments push_frame {B}. Arguments pop_frame {B}. Arguments num_args_of {B}. Arguments block_of {B}.
Arguments pop_with {B}. Arguments partial_apply {B}. Arguments run_fn {B}. Arguments call {B}.
Arguments tail_call {B}.
