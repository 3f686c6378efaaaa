(** * Type safety of programs: specification for CheckProgram.v.

    Nothing here looks at what the type checker, the compiler, the linker or the interpreter
    do: only at the syntax of expressions, at types, and at the values and results of calls. *)
From Coq Require Import String Ascii List Bool ZArith.
From Verif Require CompileModel.
From Verif Require Import PathModel FuncModel CodeModel LinkModel KindModel UnusedModel TypeModel CheckModel CheckSpec.
Import ListNotations.
Local Open Scope list_scope.

(** [monomorphic e]: [e] has no poly expression [<T@>...].  Packages, abstract types, values
    and casts, recursive types and functions may all occur. *)
Fixpoint monomorphic (e : expr) : bool :=
  match e with
  | EPoly _ _ _ => false
  | ECast p t v => monomorphic p && monomorphic t && monomorphic v
  | EVar _ | EModulePath _ | EPackage _ => true
  | ETypeof a | EAbsAccess a | EAccess a _ | ELiteral a _ => monomorphic a
  | ELet bs body =>
      forallb (fun b => match b with ((_, kt), v) =>
                 (match kt with inl _ => true | inr t => monomorphic t end && monomorphic v)%bool end) bs && monomorphic body
  | EDataType _ fields => forallb (fun p => monomorphic (snd p)) fields
  | EStruct args => forallb (fun p => monomorphic (snd p)) args
  | ECopy src args => monomorphic src && forallb (fun p => monomorphic (snd p)) args
  | EUnion t _ a => monomorphic t && monomorphic a
  | ESelect c choices d =>
      monomorphic c && forallb (fun p => monomorphic (snd p)) choices &&
      match d with None => true | Some e' => monomorphic e' end
  | EFuncType a r => monomorphic a && monomorphic r
  | EFunc _ t b => monomorphic t && monomorphic b
  | EPolyApply p a => monomorphic p && monomorphic a
  | EList f args => monomorphic f && forallb monomorphic args
  | EApply _ m args => monomorphic m && forallb monomorphic args
  end%bool.

(** ** Values of a type *)

(** [shape st t d]: apart from names of types and from abstraction, [t] is the struct, union,
    function or type type [d]. *)
Inductive shape (st : store) : nat -> ty -> Prop :=
| shape_data t u fs : get st t = Some (TData u fs) -> shape st t (TData u fs)
| shape_func t x r : get st t = Some (TFunc x r) -> shape st t (TFunc x r)
| shape_type t u : get st t = Some (TType u) -> shape st t (TType u)
| shape_name t k x v d : get st t = Some (TVar k x (Some v)) -> shape st v d -> shape st t d
| shape_abstract t p u d : get st t = Some (TAbstract p u) -> shape st u d -> shape st t d.

(** [founded st t]: below names of types and abstraction there is some other type.  A type that
    is not founded is nothing but itself made abstract: [@ T@ = P@<T@>]. *)
Inductive founded (st : store) : nat -> Prop :=
| founded_here t d : get st t = Some d ->
    match d with TVar _ _ (Some _) | TAbstract _ _ => False | _ => True end -> founded st t
| founded_name t k x v : get st t = Some (TVar k x (Some v)) -> founded st v -> founded st t
| founded_abstract t p u : get st t = Some (TAbstract p u) -> founded st u -> founded st t.

(** Structs and unions down to the bottom, of type [t]. *)
Inductive plain_data (st : store) : cval -> nat -> Prop :=
| plain_struct t fs vs : shape st t (TData false fs) -> Forall2 (plain_data st) vs (map snd fs) -> plain_data st (VStruct vs) t
| plain_union t fs tag x u a : shape st t (TData true fs) -> nth_error fs tag = Some (x, u) -> plain_data st a u ->
    plain_data st (VUnion tag a) t.

(** [behaves st k s v t]: looking at the value [v] in state [s] for [k] steps, it has the type
    [t]: a struct of that type has as many fields as the type says, and they have their types;
    a union has a tag of the type and its argument the type of that field; a function applied
    to data of its argument type does not crash, and if it returns, then a value of its result
    type.  A variable of a recursive definition that does not have its value yet has any type. *)
Fixpoint behaves (st : store) (k : nat) (s : cst) (v : cval) (t : nat) : Prop :=
  match k with
  | 0 => True
  | S k' =>
      match strict_value (refs s) v with
      | SBad => False
      | SUndef => True
      | SVal w =>
          exists d, shape st t d /\
          match d with
          | TData false fs => exists vs, w = VStruct vs /\ Forall2 (behaves st k' s) vs (map snd fs)
          | TData true fs => exists tag a x u, w = VUnion tag a /\ nth_error fs tag = Some (x, u) /\ behaves st k' s a u
          | TFunc x r => forall n a, plain_data st a x ->
              match icall n s v [a] with
              | (Ret b, s') => behaves st k' s' b r
              | (Abort, _) | (Timeout, _) => True
              | _ => False
              end
          | _ => w = VType
          end
      end
  end.

(** A result that is no crash: a value of type [t], an abort (of a select or an access with
    a field that is not there, or of a recursive definition without a value), or none yet
    after [n] nested calls. *)
Definition safe_result (st : store) (t : nat) (r : cres) : Prop :=
  match r with
  | (Ret v, s) => forall k, behaves st k s v t
  | (Abort, _) | (Timeout, _) => True
  | _ => False
  end.

(** ** Modules *)

(** The path of a module as the linker has it (PathModel.v). *)
Definition link_name (x : string) : name := mk_name (map (fun a => Z.of_nat (nat_of_ascii a)) (list_ascii_of_string x)) Normal.
Definition link_path (p : list string) : path := map link_name p.

(** [built m e c]: [c] is the compiled module of [m], when the type checker made [e] of it.
    That every select of [e] has a branch besides its default excludes selects with one
    field only, which do not compile (CheckProps.v). *)
Definition built (m : lmodule) (oe : option CompileModel.tc) (c : cmodule) : Prop :=
  c_path c = link_path (lm_path m) /\ c_deps c = map link_path (lm_deps m) /\
  exists e nblocks, oe = Some e /\ branching e /\
    CompileModel.compile_code (List.length (lm_deps m)) e = Some (c_code c, nblocks).

(** The value of the module has no poly expression. *)
Definition monomorphic_module (m : lmodule) : Prop := forall e, lm_value m = Some e -> monomorphic e = true.
