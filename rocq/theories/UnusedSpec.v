(** * Which variables of a program are used: scoping, without flags or loops. *)
From Coq Require Import String List Arith Bool.
Import ListNotations.
From Verif Require Import UnusedModel.

(** What identifies a variable in a scope. *)
Definition key (x : vname) : string * bool := (v_str x, v_type x).

(** The immediate subexpressions that are in the same scope as the whole. *)
Definition sub (e : expr) : list expr :=
  match e with
  | Null | Var _ | ModulePath | PackageType | PolyValue _ _ => []
  | Typeof e | DataAccess e _ | Literal e | AbstractAccess e => [e]
  | Let bs _ => map (fun b => fst (snd b)) bs
  | DataType l | StructValue l => map snd l
  | StructCopy e l => e :: map snd l
  | UnionValue t _ a => [t; a]
  | UnionSelect c l d => c :: map snd l ++ [d]
  | FuncType a r => [a; r]
  | FuncValue _ t _ => [t]
  | PolyApply p a => [p; a]
  | ListExpr f l => f :: l
  | AbstractCast p t v => [p; t; v]
  | MiscApply f l => f :: l
  end.

Notation binding := (vname * (expr * expr))%type.

(** The [i]th binding of a let is the one its name refers to: no later
    binding of the let has the same name. *)
Definition visible (bs : list binding) (i : nat) (k : string * bool) : Prop :=
  (exists b, nth_error bs i = Some b /\ key (fst b) = k) /\
  forall j b, i < j -> nth_error bs j = Some b -> key (fst b) <> k.

(** [uses e k]: [e] refers to the variable [k] of its context, other than from
    the value of a let binding that is itself not needed.

    [needed bs body i]: the [i]th binding of [let bs in body] is used by the
    body, directly or by way of other needed bindings, or has a name starting
    with '_'. *)
Inductive uses : expr -> string * bool -> Prop :=
| u_var x : uses (Var x) (key x)
| u_sub e c k : In c (sub e) -> uses c k -> uses e k
| u_let_body bs body k :
    uses body k -> (forall b, In b bs -> key (fst b) <> k) -> uses (Let bs body) k
| u_let_value bs body i b k :
    needed bs body i -> nth_error bs i = Some b -> uses (snd (snd b)) k ->
    (forall b, In b bs -> key (fst b) <> k) -> uses (Let bs body) k
| u_func x t body k : uses body k -> key x <> k -> uses (FuncValue x t body) k
| u_poly x body k : uses body k -> key x <> k -> uses (PolyValue x body) k
with needed : list binding -> expr -> nat -> Prop :=
| n_name bs body i b : nth_error bs i = Some b -> underscore (fst b) = true -> needed bs body i
| n_body bs body i k : visible bs i k -> uses body k -> needed bs body i
| n_value bs body i j b k :
    needed bs body j -> nth_error bs j = Some b -> uses (snd (snd b)) k ->
    visible bs i k -> needed bs body i.

(** The warnings a program deserves.  Values of bindings that are not needed
    are not looked into. *)
Inductive warned : expr -> warning -> Prop :=
| w_sub e c w : In c (sub e) -> warned c w -> warned e w
| w_let bs body i b :
    nth_error bs i = Some b -> ~ needed bs body i -> warned (Let bs body) (UnusedVar (fst b))
| w_let_body bs body w : warned body w -> warned (Let bs body) w
| w_let_value bs body i b w :
    nth_error bs i = Some b -> needed bs body i -> warned (snd (snd b)) w -> warned (Let bs body) w
| w_func x t body :
    underscore x = false -> ~ uses body (key x) -> warned (FuncValue x t body) (UnusedArg x)
| w_func_body x t body w : warned body w -> warned (FuncValue x t body) w
| w_poly_body x body w : warned body w -> warned (PolyValue x body) w.

(** Every variable a program binds by let or as a function argument. *)
Fixpoint binders (e : expr) : list warning :=
  match e with
  | Null | Var _ | ModulePath | PackageType => []
  | Typeof e | DataAccess e _ | Literal e | AbstractAccess e => binders e
  | Let bs body =>
      flat_map (fun b => UnusedVar (fst b) :: binders (fst (snd b)) ++ binders (snd (snd b))) bs
      ++ binders body
  | DataType l | StructValue l => flat_map (fun p => binders (snd p)) l
  | StructCopy e l => binders e ++ flat_map (fun p => binders (snd p)) l
  | UnionValue t _ a => binders t ++ binders a
  | UnionSelect c l d => binders c ++ flat_map (fun p => binders (snd p)) l ++ binders d
  | FuncType a r => binders a ++ binders r
  | FuncValue x t body => UnusedArg x :: binders t ++ binders body
  | PolyValue _ body => binders body
  | PolyApply p a => binders p ++ binders a
  | ListExpr f l => binders f ++ flat_map binders l
  | AbstractCast p t v => binders p ++ binders t ++ binders v
  | MiscApply f l => binders f ++ flat_map binders l
  end.

(** Every let binds something, as the grammar has it, lib/parse.y. *)
Inductive lets_ok : expr -> Prop :=
| lets_intro e :
    (forall c, In c (sub e) -> lets_ok c) ->
    (forall bs body, e = Let bs body -> bs <> [] /\ lets_ok body /\
       forall b, In b bs -> lets_ok (snd (snd b))) ->
    (forall x t body, e = FuncValue x t body -> lets_ok body) ->
    (forall x body, e = PolyValue x body -> lets_ok body) ->
    lets_ok e.
