(** * A reference evaluator for type checked expressions (a proof device).

    It runs expressions directly, in the order the compiled code does, with function values
    merged as the compiler merges them.  CompileProofs shows that the compiled code does the
    same as this evaluator, and TcSpec/TcProofs that this evaluator agrees with the
    language's semantics. *)
From Coq Require Import List Arith Lia Bool.
From Verif Require Import FuncModel CodeModel CompileModel.
Import ListNotations.

Notation eval_val := (val tc).
Notation eval_st := (st tc).

Inductive lres := LOk (vs : list eval_val) (s : eval_st) | LFail (o : out tc) (s : eval_st).

(** Evaluating a list of expressions, first one first. *)
Definition ev_list (f : tc -> eval_st -> res tc) : list tc -> eval_st -> lres :=
  fix go l s :=
    match l with
    | [] => LOk [] s
    | e :: r =>
      match f e s with
      | (Ret v, s) => match go r s with LOk vs s => LOk (v :: vs) s | o => o end
      | (Tail _ _, s) => LFail Crash s
      | (o, s) => LFail o s
      end
    end.

Fixpoint alloc_refs (n : nat) (s : eval_st) : list eval_val * eval_st :=
  match n with
  | O => ([], s)
  | S n' => let '(r, s) := new_ref s in let '(rs, s) := alloc_refs n' s in (r :: rs, s)
  end.

Fixpoint assign_refs (rs ds : list eval_val) (s : eval_st) : option (option eval_st) * eval_st :=
  match rs, ds with
  | r :: rs, d :: ds =>
    match assign_ref s r d with
    | Some (Some s') => assign_refs rs ds s'
    | o => (o, s)
    end
  | _, _ => (Some (Some s), s)
  end.

Fixpoint find_target {A} (tag : nat) (ts : list (nat * A)) : option A :=
  match ts with
  | [] => None
  | (t, e) :: r => if t =? tag then Some e else find_target tag r
  end.

(** Fields of a struct copy. *)
Definition ev_fields (f : tc -> eval_st -> res tc) (src : eval_val) : nat -> list (option tc) -> eval_st -> lres :=
  fix go i l s :=
    match l with
    | [] => LOk [] s
    | Some e :: r =>
      match f e s with
      | (Ret v, s) => match go (S i) r s with LOk vs s => LOk (v :: vs) s | o => o end
      | (Tail _ _, s) => LFail Crash s
      | (o, s) => LFail o s
      end
    | None :: r =>
      match strict_value (refs s) src with
      | SUndef => LFail Abort s
      | SVal (VStruct fs) =>
        match nth_error fs i with
        | Some v => match go (S i) r s with LOk vs s => LOk (v :: vs) s | o => o end
        | None => LFail Crash s
        end
      | _ => LFail Crash s
      end
    end.

Section ev.
  Variable callf : eval_st -> eval_val -> list eval_val -> res tc.
  Variables (statics args : list eval_val).

  Definition lookup (env : list (option eval_val)) (v : var) : option eval_val :=
    match v with
    | Static i => nth_error statics i
    | Arg i => nth_error args i
    | Local i => match nth_error env i with Some (Some x) => Some x | _ => None end
    end.

  Fixpoint lookups (env : list (option eval_val)) (vs : list var) : option (list eval_val) :=
    match vs with
    | [] => Some []
    | v :: r =>
      match lookup env v, lookups env r with
      | Some x, Some xs => Some (x :: xs)
      | _, _ => None
      end
    end.

  Fixpoint ev (exit : bool) (e : tc) (env : list (option eval_val)) (s : eval_st) {struct e} : res tc :=
    match e with
    | TType => (Ret VType, s)
    | TVar v => match lookup env v with Some x => (Ret x, s) | None => (Crash, s) end
    | TLet recursive bs body =>
      let n := length bs in
      let '(rs, s) := if recursive then alloc_refs n s else ([], s) in
      let env1 := env ++ (if recursive then map Some rs else repeat None n) in
      match ev_list (fun e s => ev false e env1 s) bs s with
      | LFail o s => (o, s)
      | LOk ds s =>
        match assign_refs rs ds s with
        | (Some (Some s), _) => ev exit body (env ++ map Some ds) s
        | (Some None, s) => (Abort, s)
        | (None, s) => (Crash, s)
        end
      end
    | TStruct fs =>
      match ev_list (fun e s => ev false e env s) fs s with
      | LOk vs s => (Ret (VStruct vs), s)
      | LFail o s => (o, s)
      end
    | TCopy src fs =>
      match ev false src env s with
      | (Ret sv, s) =>
        match ev_fields (fun e s => ev false e env s) sv 0 fs s with
        | LOk vs s => (Ret (VStruct vs), s)
        | LFail o s => (o, s)
        end
      | (Tail _ _, s) => (Crash, s)
      | (o, s) => (o, s)
      end
    | TUnion tag a =>
      match ev false a env s with
      | (Ret v, s) => (Ret (VUnion tag v), s)
      | (Tail _ _, s) => (Crash, s)
      | (o, s) => (o, s)
      end
    | TSelect c n ts dflt =>
      match ev false c env s with
      | (Ret v, s) =>
        match strict_value (refs s) v with
        | SUndef => (Abort, s)
        | SVal (VUnion tag _) =>
          if tag <? n then
          (fix branch ts :=
             match ts with
             | [] => ev exit dflt env s
             | (t, e) :: r => if t =? tag then ev exit e env s else branch r
             end) ts
          else (Crash, s)
        | _ => (Crash, s)
        end
      | (Tail _ _, s) => (Crash, s)
      | (o, s) => (o, s)
      end
    | TAccess is_struct o tag =>
      match ev false o env s with
      | (Ret v, s) =>
        match strict_value (refs s) v with
        | SUndef => (Abort, s)
        | SBad => (Crash, s)
        | SVal (VStruct fs) =>
          if is_struct then
            match nth_error fs tag with Some x => (Ret x, s) | None => (Crash, s) end
          else (Crash, s)
        | SVal (VUnion t x) =>
          if is_struct then (Crash, s) else if t =? tag then (Ret x, s) else (Abort, s)
        | SVal _ => (Crash, s)
        end
      | (Tail _ _, s) => (Crash, s)
      | (o, s) => (o, s)
      end
    | TFunc scope body =>
      match lookups env scope with
      | Some xs => let '(nargs, b) := merge_func scope body in (Ret (VFunc nargs b 0 xs), s)
      | None => (Crash, s)
      end
    | TApply f a =>
      let head := (fix head (g : tc) : res tc :=
        match g with TApply g' _ => head g' | _ => ev false g env s end) f in
      match head with
      | (Ret fv, s) =>
        let rest := (fix rest (g : tc) (s : eval_st) : lres :=
          match g with
          | TApply g' b =>
            match ev false b env s with
            | (Ret v, s) => match rest g' s with LOk vs s => LOk (v :: vs) s | o => o end
            | (Tail _ _, s) => LFail Crash s
            | (o, s) => LFail o s
            end
          | _ => LOk [] s
          end) in
        match ev false a env s with
        | (Ret v, s) =>
          match rest f s with
          | LOk vs s =>
            let xs := rev (v :: vs) in
            if exit then
              match strict_value (refs s) fv with
              | SUndef => (Abort, s)
              | SBad => (Crash, s)
              | SVal fn => match num_args_of fn with Some _ => (Tail fv xs, s) | None => (Crash, s) end
              end
            else
              match callf s fv xs with
              | (Tail _ _, s) => (Crash, s)
              | r => r
              end
          | LFail o s => (o, s)
          end
        | (Tail _ _, s) => (Crash, s)
        | (o, s) => (o, s)
        end
      | (Tail _ _, s) => (Crash, s)
      | (o, s) => (o, s)
      end
    | TList fs =>
      match ev_list (fun e s => ev false e env s) fs s with
      | LOk vs s => (Ret (list_value vs), s)
      | LFail o s => (o, s)
      end
    | TLiteral letters => (Ret (literal_value letters), s)
    end.
End ev.

(** Running the body of a function. *)
Definition ev_run (callf : eval_st -> eval_val -> list eval_val -> res tc) (b : tc) (block : nat)
  (statics args : list eval_val) (s : eval_st) : res tc :=
  ev callf statics args true b [] s.

Definition ecall (n : nat) : eval_st -> eval_val -> list eval_val -> res tc := call ev_run n.

(** The variables of an expression are in scope: [ns] statics, [na] arguments, and the local
    variables [env], [true] for the defined ones; targets of selects are sorted and there
    is at least one. *)
Fixpoint sorted_from (lo : nat) (l : list nat) : bool :=
  match l with [] => true | x :: r => (lo <=? x) && sorted_from (S x) r end.

Definition wf_var (ns na : nat) (env : list bool) (v : var) : bool :=
  match v with
  | Static i => i <? ns
  | Arg i => i <? na
  | Local i => nth i env false
  end.

Fixpoint wf (ns na : nat) (env : list bool) (e : tc) : bool :=
  match e with
  | TType | TLiteral _ => true
  | TVar v => wf_var ns na env v
  | TLet r bs b =>
    forallb (wf ns na (env ++ repeat r (length bs))) bs && wf ns na (env ++ repeat true (length bs)) b
  | TStruct fs | TList fs => forallb (wf ns na env) fs
  | TCopy src fs => wf ns na env src && forallb (fun o => match o with Some e => wf ns na env e | None => true end) fs
  | TUnion _ a => wf ns na env a
  | TSelect c n ts d =>
    wf ns na env c && forallb (fun p => wf ns na env (snd p)) ts && wf ns na env d
    && sorted_from 0 (map fst ts) && forallb (fun t => t <? n) (map fst ts) && negb (length ts =? 0)
  | TAccess _ o _ => wf ns na env o
  | TFunc scope b => forallb (wf_var ns na env) scope && wf (length scope) 1 [] b
  | TApply f a => wf ns na env f && wf ns na env a
  end.
