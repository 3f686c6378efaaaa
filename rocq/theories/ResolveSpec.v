(** * What the names of a program mean: specification for ResolveProps.v.

    Nothing here looks at the type checker: only at the syntax of expressions, at the code
    made from them (lib/tc.h, CompileModel.v), and at names. *)
From Coq Require Import String List Arith Bool.
From Verif Require Import CodeModel CompileModel.
From Verif Require KindModel UnusedModel CheckModel.
Import ListNotations.
Local Open Scope list_scope.
Import CheckModel(expr(..)).
Import UnusedModel(vname, v_str, v_type).

(** What identifies a variable: its text and name space, or the path of a module. *)
Inductive key := Name (x : string) (of_types : bool) | Module (p : list string).
Definition key_dec (a b : key) : {a = b} + {a <> b}.
Proof. decide equality; auto using string_dec, bool_dec, list_eq_dec. Defined.
Definition named (x : vname) : key := Name (v_str x) (v_type x).

(** Where the value of a variable is. *)
Inductive place :=
| NoValue            (** the parameter of a poly: a type only *)
| At (w : var)       (** among the arguments, the captured or the local variables of the function *)
| Away.              (** not readable here: not captured, or not defined yet *)

(** What is in scope; a binding hides those before it of the same name. *)
Definition env := key -> option place.
Definition bind (k : key) (p : place) (G : env) : env := fun j => if key_dec j k then Some p else G j.
Definition empty : env := fun _ => None.
(** Local variables numbered from [k], the last innermost. *)
Fixpoint bind_locals (k : nat) (xs : list vname) (readable : bool) (G : env) : env :=
  match xs with
  | [] => G
  | x :: r => bind_locals (S k) r readable (bind (named x) (if readable then At (Local k) else Away) G)
  end.
(** The dependencies of a module: the arguments of its function. *)
Fixpoint bind_modules (i : nat) (ps : list (list string)) (G : env) : env :=
  match ps with
  | [] => G
  | p :: r => bind_modules (S i) r (bind (Module p) (At (Arg i)) G)
  end.

(** [captures vs G H]: what is readable by [H] is readable inside a function that captured
    [vs] of what is in scope by [G]: the same variable, at its place among the captured ones. *)
Definition captures (vs : list var) (G H : env) : Prop :=
  forall j, match H j with
            | Some (At v) => exists i w, v = Static i /\ nth_error vs i = Some w /\ G j = Some (At w)
            | Some NoValue => G j = Some NoValue
            | _ => True
            end.

Fixpoint present {A} (l : list (option A)) : list A :=
  match l with [] => [] | Some x :: r => x :: present r | None :: r => present r end.
(** Application to one argument after the other. *)
Fixpoint apply_to (f : tc) (args : list tc) : tc :=
  match args with [] => f | a :: r => apply_to (TApply f a) r end.

(** [resolves k G e c]: with [k] local variables in use and [G] in scope, the code [c] is that
    of the expression [e] with each name of [e] standing for its innermost binding, the parts
    of [e] in their order, none left out and none added.  Fields, tags and letters are left
    open here. *)
Inductive resolves (k : nat) (G : env) : expr -> tc -> Prop :=
| res_typeof e : resolves k G (ETypeof e) TType
| res_data_type u fs : resolves k G (EDataType u fs) TType
| res_func_type a r : resolves k G (EFuncType a r) TType
| res_package p : resolves k G (EPackage p) TType
| res_var x w : G (named x) = Some (At w) -> resolves k G (EVar x) (TVar w)
| res_type_var x : G (named x) = Some NoValue -> resolves k G (EVar x) TType
| res_module p w : G (Module p) = Some (At w) -> resolves k G (EModulePath p) (TVar w)
| res_let bs body recursive ds b :
    let xs := map (fun d => fst (fst d)) bs in
    resolves_all (k + List.length bs) (bind_locals k xs recursive G) (map snd bs) ds ->
    resolves (k + List.length bs) (bind_locals k xs true G) body b ->
    resolves k G (ELet bs body) (TLet recursive ds b)
| res_struct args cs : resolves_all k G (map snd args) cs -> resolves k G (EStruct args) (TStruct cs)
| res_copy src args s fs : resolves k G src s -> resolves_all k G (map snd args) (present fs) ->
    resolves k G (ECopy src args) (TCopy s fs)
| res_union t x a tag c : resolves k G a c -> resolves k G (EUnion t x a) (TUnion tag c)
| res_select e choices e' c n ts d : resolves k G e c ->             (* some field has no choice *)
    resolves_all k G (map snd choices) (map snd ts) -> resolves k G e' d ->
    resolves k G (ESelect e choices (Some e')) (TSelect c n ts d)
| res_select_all e choices de c n ts d : resolves k G e c ->         (* the last choice is the default *)
    resolves_all k G (map snd choices) (map snd ts ++ [d]) ->
    resolves k G (ESelect e choices de) (TSelect c n ts d)
| res_access e x struct c i : resolves k G e c -> resolves k G (EAccess e x) (TAccess struct c i)
| res_func x t body vs H b : captures vs G H ->
    resolves 0 (bind (named x) (At (Arg 0)) H) body b ->
    resolves k G (EFunc x t body) (TFunc vs b)
| res_poly x kd body b : resolves k (bind (named x) NoValue G) body b -> resolves k G (EPoly x kd body) b
| res_poly_apply p a c : resolves k G p c -> resolves k G (EPolyApply p a) c
| res_poly_apply_type p a c : resolves k G p c ->                  (* an abstract type *)
    resolves k G (EPolyApply p a) TType
| res_list f args c cs : resolves k G f c -> resolves_all k G args cs ->
    resolves k G (EList f args) (TApply c (TList cs))
| res_literal f word c ls : resolves k G f c -> resolves k G (ELiteral f word) (TApply c (TLiteral ls))
| res_cast p t v c : resolves k G v c -> resolves k G (ECast p t v) c
| res_abs_access v c : resolves k G v c -> resolves k G (EAbsAccess v) c
| res_apply b f args c cs : resolves k G f c -> resolves_all k G args cs ->
    resolves k G (EApply b f args) (apply_to c cs)
| res_apply_struct f args cs : resolves_all k G args cs -> resolves k G (EApply false f args) (TStruct cs)
| res_apply_abstract f a c : resolves k G a c -> resolves k G (EApply false f [a]) c
with resolves_all (k : nat) (G : env) : list expr -> list tc -> Prop :=
| res_nil : resolves_all k G [] []
| res_cons e es c cs : resolves k G e c -> resolves_all k G es cs -> resolves_all k G (e :: es) (c :: cs).
Scheme resolves_mut := Minimality for resolves Sort Prop
  with resolves_all_mut := Minimality for resolves_all Sort Prop.
